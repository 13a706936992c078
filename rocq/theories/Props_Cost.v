(** Property C43: how often the loop of a lookup runs.

    [api n] is a type whose loops run at most n times ([map_types], [set_types],
    CostTypes.v): a call that needs more rounds has the outcome Hang. So n rounds
    suffice for a lookup exactly when it does not hang with [api n]. *)
From stdpp Require Import base numbers list gmap.
From Verif Require Import GoInt Mem Hash Amt Families Spec Guards Client Types Observe ObserveFacts ObserveMap ObserveSet Order Pack Runs Sep
  DepthSpec Depth CostTypes CostPack Props_Types Props_Depth.
Local Open Scope nat_scope.

Lemma types_map {V U K CK} `{Countable K} (zero : V) (api : nat -> mapapi K V CK U) dig ok n :
  map_types zero api dig ok -> map_type zero n (api n) dig ok.
Proof. intros []; by constructor. Qed.
Lemma types_set {U K CK} `{Countable K} (api : nat -> setapi K unit CK U) dig ok n :
  set_types api dig ok -> set_type n (api n) dig ok.
Proof. intros []; by constructor. Qed.

Lemma alone_iff {K} (dig : N -> K -> nat -> N) s ks ks' n k : (∀ k, k ∈ ks <-> k ∈ ks') -> alone dig s ks n k <-> alone dig s ks' n k.
Proof. intros He. unfold alone. split; intros Ha k1 k2 H1 H2; apply Ha; by apply He. Qed.
Lemma alone_depth {K} `{EqDecision K} (dig : N -> K -> nat -> N) s ks n k : k ∈ ks -> alone dig s ks 241 k -> 0 < n ->
  alone dig s ks n k <-> depth dig s ks k < n.
Proof.
  intros Hk Hmax Hn.
  assert (Hself : ∀ j, alike dig s j k k = true) by (intros; by apply alike_iff).
  split.
  - intros Ha. destruct (decide (depth dig s ks k < n)) as [|Hge]; [done|exfalso].
    destruct (depth_gt dig s ks k (n - 1)) as (k' & Hk' & Hne & Hal); [lia|].
    replace (S (n - 1)) with n in Hal by lia. apply Hne. apply Ha; auto.
  - intros Hd. assert (Hone : ∀ k', k' ∈ ks -> alike dig s n k k' = true -> k' = k).
    { intros k' Hk' Hal. destruct (decide (k' = k)) as [|Hne]; [done|exfalso].
      destruct (decide (n <= 241)) as [Hle|Hgt].
      - assert (Hd' : depth dig s ks k <= n - 1) by lia. rewrite depth_le in Hd'. specialize (Hd' k' Hk' Hne).
        assert (n <= common 241 (dig s k) (dig s k')) by (apply common_ge; [done|]; by apply alike_iff). lia.
      - apply Hne. apply Hmax; auto. rewrite alike_iff in Hal |- *. intros i Hi. apply Hal. lia. }
    intros k1 k2 H1 H2 Ha1 Ha2. by rewrite (Hone k1), (Hone k2).
Qed.

Section maps.
Context (V U K CK : Type) (EqK : EqDecision K) (CoK : Countable K) (zero : V) (u0 : U) (fuel : nat).
Context (api : nat -> mapapi K V CK U) (dig : N -> K -> nat -> N) (ok : list (mop K V U * mres V) -> mop K V U -> Prop).
Hypothesis Hfuel : 256 <= fuel.
Hypothesis Htype : map_types zero api dig ok.
Implicit Types (tr : list (mop K V U * mres V)) (w : world V CK U) (h : positive) (m : gmap K V).
Local Notation contents := (contents (api fuel) zero ok).
Local Notation mrun := (mrun (api fuel) ok u0).

Lemma map_keys tr w h m k : mrun tr w -> contents tr w h m -> k ∈ (map_to_list m).*1 <-> k ∈ elements (stored tr h).
Proof.
  intros Hr Hm. rewrite elem_of_elements, <- (obs_stored zero fuel u0 Hfuel (api fuel) dig ok (types_map _ _ _ _ _ Htype) tr w h k m Hr Hm).
  split.
  - intros ([k' v] & -> & Hin)%elem_of_list_fmap. apply elem_of_map_to_list in Hin. by exists v.
  - intros [v Hv]. apply elem_of_list_fmap. exists (k, v). split; [done|]. by apply elem_of_map_to_list.
Qed.

(** n rounds suffice exactly when at most one stored key has the same first n digits
    as k, and 241 rounds always do. *)
Theorem C43_lookup_rounds_map : ∀ tr w h s m k op n, mrun tr w -> (MNew s, RHandle h) ∈ tr -> contents tr w h m ->
  op = MGet h k \/ op = MVal h k \/ op = MPtr h k -> 0 < n ->
  let ks := (map_to_list m).*1 in
  (alone dig s ks n k -> mcall (api n) op w = mcall (api fuel) op w) /\
  (¬ alone dig s ks n k -> mcall (api n) op w = Hang) /\
  (241 <= n -> alone dig s ks n k).
Proof.
  intros tr w h s m k op n Hr Hin Hm Hop Hn ks.
  pose proof (alone_iff dig s ks (elements (stored tr h)) n k (λ k, map_keys tr w h m k Hr Hm)) as Ha. rewrite Ha.
  exact (map_cost zero fuel u0 Hfuel api dig ok tr w s h n k Htype Hr Hin Hn op Hop).
Qed.

(** For a stored key: one round more than its depth. *)
Theorem C43_stored_rounds_map : ∀ tr w h s m k op n, mrun tr w -> (MNew s, RHandle h) ∈ tr -> contents tr w h m ->
  op = MGet h k \/ op = MVal h k \/ op = MPtr h k -> is_Some (m !! k) ->
  let d := depth dig s (map_to_list m).*1 k in
  d <= 240 /\ (n <= d -> 0 < n -> mcall (api n) op w = Hang) /\ (d < n -> mcall (api n) op w = mcall (api fuel) op w).
Proof.
  intros tr w h s m k op n Hr Hin Hm Hop Hk d.
  assert (Hmem : k ∈ (map_to_list m).*1).
  { destruct Hk as [v Hv]. apply elem_of_list_fmap. exists (k, v). split; [done|]. by apply elem_of_map_to_list. }
  destruct (C43_lookup_rounds_map tr w h s m k op 241 Hr Hin Hm Hop ltac:(lia)) as (_ & _ & Hmax). specialize (Hmax (le_n _)).
  pose proof (alone_depth dig s _ 241 k Hmem Hmax ltac:(lia)) as Hd. rewrite Hd in Hmax.
  split; [unfold d; lia|]. rewrite <- Hd in Hmax. split.
  - intros Hn H0. destruct (C43_lookup_rounds_map tr w h s m k op n Hr Hin Hm Hop H0) as (_ & Hx & _). apply Hx.
    rewrite (alone_depth dig s _ n k Hmem Hmax H0). unfold d in Hn. lia.
  - intros Hn. destruct (C43_lookup_rounds_map tr w h s m k op n Hr Hin Hm Hop ltac:(lia)) as (Hx & _). apply Hx.
    by rewrite (alone_depth dig s _ n k Hmem Hmax) by lia.
Qed.
End maps.

Section sets.
Context (U K CK : Type) (EqK : EqDecision K) (CoK : Countable K) (u0 : U) (fuel : nat).
Context (api : nat -> setapi K unit CK U) (dig : N -> K -> nat -> N) (ok : list (sop K U * sres) -> sop K U -> Prop).
Hypothesis Hfuel : 256 <= fuel.
Hypothesis Htype : set_types api dig ok.
Implicit Types (tr : list (sop K U * sres)) (w : world unit CK U) (h : positive) (X : gset K).
Local Notation members := (members (api fuel) ok).
Local Notation srun := (srun (api fuel) ok u0).

Lemma set_keys tr w h s X : srun tr w -> (SNew s, THandle h) ∈ tr -> members tr w h X -> X = sstored tr h.
Proof.
  intros Hr Hin Hm. pose proof (types_set _ _ _ fuel Htype) as Ht.
  destruct (set_sim fuel u0 Hfuel (api fuel) dig ok Ht) as (R & H1 & _ & H3).
  destruct (H1 _ _ Hr) as (σ & Hs & HR).
  assert (HX : X = elems σ h) by (eapply (members_unique (api fuel) ok); [done|by eapply run_members]).
  destruct (sspec_new _ _ _ _ Hs _ _ Hin) as [Y HY]. destruct (sspec_stored dig u0 tr σ Hs h s Y HY) as [<- _].
  rewrite HX. unfold elems. by rewrite HY.
Qed.

Theorem C43_lookup_rounds_set : ∀ tr w h s X k n, srun tr w -> (SNew s, THandle h) ∈ tr -> members tr w h X -> 0 < n ->
  let ks := elements X in
  (alone dig s ks n k -> scall (api n) (SHas h k) w = scall (api fuel) (SHas h k) w) /\
  (¬ alone dig s ks n k -> scall (api n) (SHas h k) w = Hang) /\
  (241 <= n -> alone dig s ks n k).
Proof.
  intros tr w h s X k n Hr Hin Hm Hn ks. unfold ks. rewrite (set_keys tr w h s X Hr Hin Hm).
  exact (set_cost fuel u0 Hfuel api dig ok tr w s h n k Htype Hr Hin Hn).
Qed.

Theorem C43_stored_rounds_set : ∀ tr w h s X k n, srun tr w -> (SNew s, THandle h) ∈ tr -> members tr w h X -> k ∈ X ->
  let d := depth dig s (elements X) k in
  d <= 240 /\ (n <= d -> 0 < n -> scall (api n) (SHas h k) w = Hang) /\
  (d < n -> scall (api n) (SHas h k) w = scall (api fuel) (SHas h k) w).
Proof.
  intros tr w h s X k n Hr Hin Hm Hk d.
  assert (Hmem : k ∈ elements X) by (by apply elem_of_elements).
  destruct (C43_lookup_rounds_set tr w h s X k 241 Hr Hin Hm ltac:(lia)) as (_ & _ & Hmax). specialize (Hmax (le_n _)).
  pose proof (alone_depth dig s _ 241 k Hmem Hmax ltac:(lia)) as Hd. rewrite Hd in Hmax.
  split; [unfold d; lia|]. rewrite <- Hd in Hmax. split.
  - intros Hn H0. destruct (C43_lookup_rounds_set tr w h s X k n Hr Hin Hm H0) as (_ & Hx & _). apply Hx.
    rewrite (alone_depth dig s _ n k Hmem Hmax H0). unfold d in Hn. lia.
  - intros Hn. destruct (C43_lookup_rounds_set tr w h s X k n Hr Hin Hm ltac:(lia)) as (Hx & _). apply Hx.
    by rewrite (alone_depth dig s _ n k Hmem Hmax) by lia.
Qed.
End sets.

Print Assumptions C43_lookup_rounds_map.
Print Assumptions C43_stored_rounds_map.
Print Assumptions C43_lookup_rounds_set.
Print Assumptions C43_stored_rounds_set.

(** ** The hypotheses can be met *)

(** In a container with seed 0 the keys 1 and 2 have depth 1 and 3 has depth 0 (C42). *)
Lemma spread3_depths : ∀ ks, (∀ k, k ∈ ks <-> k ∈ keys3) ->
  depth (digit spread3) 0 ks [1]%N = 1 /\ depth (digit spread3) 0 ks [3]%N = 0.
Proof.
  intros ks Hks. set (dp := depth (digit spread3) 0).
  assert (Hd : ∀ k ks', (∀ k, k ∈ ks' -> k ∈ ks) -> dp ks' k <= dp ks k).
  { intros k ks' Hin. unfold dp. apply depth_le. intros k' Hk' Hne.
    pose proof (proj1 (depth_le (digit spread3) 0 ks k _) (le_n _)) as Hx. apply Hx; auto. }
  assert (Hd' : ∀ k ks', (∀ k, k ∈ ks -> k ∈ ks') -> dp ks k <= dp ks' k).
  { intros k ks' Hin. unfold dp. apply depth_le. intros k' Hk' Hne.
    pose proof (proj1 (depth_le (digit spread3) 0 ks' k _) (le_n _)) as Hx. apply Hx; auto. }
  pose proof (Hd [1]%N keys3 (λ k, proj2 (Hks k))). pose proof (Hd' [1]%N keys3 (λ k, proj1 (Hks k))).
  pose proof (Hd' [3]%N keys3 (λ k, proj1 (Hks k))).
  assert (dp keys3 [1]%N = 1) by (vm_compute; reflexivity).
  assert (dp keys3 [3]%N = 0) by (vm_compute; reflexivity). lia.
Qed.

(** One round suffices for the key 3 and two for the key 1, which one round does not find. *)
Example C43_map_nonvacuous :
  let api := λ n, StringMap_api spread3 0%N n in
  let ok := λ tr op, mallowed (λ _, true = true) (λ _, true = true) tr op /\ ins_guard (digit spread3) any_way any_way tr op in
  map_types (0%N) api (digit spread3) ok /\
  ∃ tr w m, mrun (api 256) ok 0%N tr w /\ (MNew 0, RHandle 2) ∈ tr /\ contents (api 256) 0%N ok tr w 2 m /\
    is_Some (m !! [1]%N) /\
    mcall (api 1) (MGet 2 [1]%N) w = Hang /\ mcall (api 2) (MGet 2 [1]%N) w = mcall (api 256) (MGet 2 [1]%N) w /\
    mcall (api 1) (MGet 2 [3]%N) w = mcall (api 256) (MGet 2 [3]%N) w.
Proof.
  intros api ok. assert (Ht : map_types 0%N api (digit spread3) ok) by apply types_StringMap. split; [exact Ht|].
  destruct C42_nonvacuous as (_ & _ & tr & w & m & Hr & Hin & _ & Hm & Hk).
  assert (Hall : ∀ k, k ∈ (map_to_list m).*1 <-> k ∈ keys3) by (intros k; by rewrite Hk).
  destruct (spread3_depths _ Hall) as [E1 E3].
  assert (Hs : ∀ k, k ∈ keys3 -> is_Some (m !! k)).
  { intros k Hin'. apply Hall in Hin'. apply elem_of_list_fmap in Hin' as ([k' v] & -> & Hx). apply elem_of_map_to_list in Hx. by exists v. }
  assert (H1 : is_Some (m !! [1]%N)) by (apply Hs; apply elem_of_list_In; simpl; tauto).
  assert (H3 : is_Some (m !! [3]%N)) by (apply Hs; apply elem_of_list_In; simpl; tauto).
  pose proof (λ k n, C43_stored_rounds_map _ _ _ _ _ _ 0%N 0%N 256 api (digit spread3) ok (le_n _) Ht tr w 2 0%N m k (MGet 2 k) n Hr Hin Hm ltac:(by left)) as Hc.
  exists tr, w, m. split; [exact Hr|]. split; [exact Hin|]. split; [exact Hm|]. split; [exact H1|]. split; [|split].
  - destruct (Hc [1]%N 1 H1) as (_ & Hx & _). apply Hx; rewrite ?E1; lia.
  - destruct (Hc [1]%N 2 H1) as (_ & _ & Hx). apply Hx. rewrite E1. lia.
  - destruct (Hc [3]%N 1 H3) as (_ & _ & Hx). apply Hx. rewrite E3. lia.
Qed.

Example C43_set_nonvacuous :
  let api := λ n, StringSet_api (U:=N) spread3 n in
  let ok := λ tr op, sallowed (λ _, true = true) (λ _, true = true) tr op /\ add_guard (digit spread3) any_way tr op in
  set_types api (digit spread3) ok /\
  ∃ tr w X, srun (api 256) ok 0%N tr w /\ (SNew 0, THandle 2) ∈ tr /\ members (api 256) ok tr w 2 X /\ [1]%N ∈ X /\
    scall (api 1) (SHas 2 [1]%N) w = Hang /\ scall (api 2) (SHas 2 [1]%N) w = scall (api 256) (SHas 2 [1]%N) w /\
    scall (api 1) (SHas 2 [3]%N) w = scall (api 256) (SHas 2 [3]%N) w.
Proof.
  intros api ok. assert (Ht : set_types api (digit spread3) ok) by apply types_StringSet. split; [exact Ht|].
  destruct (sexec_res (api 256) (gschk (digit spread3) (λ _, true) anyb) ok 0%N
    [SNew 0; SAdd 2 [1]%N; SAdd 2 [2]%N; SAdd 2 [3]%N] [THandle 2; TUnit; TUnit; TUnit]) as (tr & w & Hr & Htr).
  { intros tr op. apply gschk_ok; apply anyb_ok. }
  { vm_compute. reflexivity. }
  apply (f_equal reverse) in Htr. rewrite reverse_involutive in Htr. vm_compute in Htr.
  destruct (obs_members 256 0%N (le_n _) _ _ _ (types_set _ _ _ 256 Ht) tr w 2 Hr) as [X Hm].
  assert (Hin : (SNew 0, THandle 2) ∈ tr) by (rewrite Htr; apply elem_of_list_In; simpl; tauto).
  pose proof (set_keys _ _ _ _ _ 0%N 256 api (digit spread3) ok (le_n _) Ht tr w 2 0%N X Hr Hin Hm) as HX.
  assert (Hk : ∀ k, k ∈ X <-> k ∈ keys3).
  { intros k. rewrite HX, Htr. simpl. rewrite !elem_of_union, !elem_of_singleton, elem_of_empty.
    unfold keys3. rewrite !elem_of_cons, elem_of_nil. tauto. }
  destruct (spread3_depths (elements X)) as [E1 E3]; [intros k; by rewrite elem_of_elements|].
  assert (H1 : [1]%N ∈ X) by (apply Hk; apply elem_of_list_In; simpl; tauto).
  assert (H3 : [3]%N ∈ X) by (apply Hk; apply elem_of_list_In; simpl; tauto).
  pose proof (λ k n, C43_stored_rounds_set _ _ _ _ _ 0%N 256 api (digit spread3) ok (le_n _) Ht tr w 2 0%N X k n Hr Hin Hm) as Hc.
  exists tr, w, X. split; [exact Hr|]. split; [exact Hin|]. split; [exact Hm|]. split; [exact H1|]. split; [|split].
  - destruct (Hc [1]%N 1 H1) as (_ & Hx & _). apply Hx; rewrite ?E1; lia.
  - destruct (Hc [1]%N 2 H1) as (_ & _ & Hx). apply Hx. rewrite E1. lia.
  - destruct (Hc [3]%N 1 H3) as (_ & _ & Hx). apply Hx. rewrite E3. lia.
Qed.
