(** How often the loop of a lookup runs. *)
From stdpp Require Import base numbers list gmap.
From Verif Require Import GoInt Mem Hash Amt Families BitsFacts Steps Tree Rep Paths Descend Insert Split Delete Remove Core Order Heap Spec DepthSpec Depth.
Local Open Scope nat_scope.

Section fuel.
Context {K HS V CK U : Type} (F : fam K HS V CK U).
Implicit Types (w : world V CK U).

Definition fuel_left (x : found (HS:=HS) unit) : nat :=
  match x with Missing n _ _ _ _ => n | Present n _ _ _ _ _ => n end.
Definition fuel_set (n : nat) (x : found (HS:=HS) unit) : found unit :=
  match x with Missing _ h d l acc => Missing n h d l acc | Present _ h d l item acc => Present n h d l item acc end.

(** A traversal that returns with some fuel runs a fixed number of times. *)
Lemma descend_fuel s k fuel : ∀ h l d w x w',
  descend F no_visit fuel s k h l d tt w = Ret x w' ->
  ∃ j, fuel = S (j + fuel_left x) /\
    (∀ n, n <= j -> descend F no_visit n s k h l d tt w = Hang) /\
    (∀ n, descend F no_visit (S (j + n)) s k h l d tt w = Ret (fuel_set n x) w').
Proof.
  induction fuel as [|fuel IH]; intros h l d w x w' Hd; [done|].
  cbn [descend] in Hd. unfold bind in Hd. destruct (load_link l w) as [lv w1| | |] eqn:El; try done.
  destruct (N.land (lk_pmap lv) (bit_of (radix_of h)) =? 0)%N eqn:E1.
  { injection Hd as <- <-. exists 0. split; [done|]. split.
    - intros n Hn. replace n with 0 by lia. done.
    - intros n. change (S (0 + n)) with (S n). cbn [descend]. unfold bind. by rewrite El, E1. }
  unfold no_visit at 1 in Hd. unfold ret at 1 in Hd.
  destruct (N.land (lk_tmap lv) (bit_of (radix_of h)) =? 0)%N eqn:E2.
  - destruct (IH _ _ _ _ _ _ Hd) as (j & Hj & Hlow & Hhigh). exists (S j). split; [lia|]. split.
    + intros [|n] Hn; [done|]. cbn [descend]. unfold bind. rewrite El, E1. unfold no_visit at 1. unfold ret at 1. rewrite E2. apply Hlow. lia.
    + intros n. change (S (S j + n)) with (S (S (j + n))). remember (S (j + n)) as m. cbn [descend]. unfold bind. rewrite El, E1.
      unfold no_visit at 1. unfold ret at 1. rewrite E2. subst m. apply Hhigh.
  - injection Hd as <- <-. exists 0. split; [done|]. split.
    + intros n Hn. replace n with 0 by lia. done.
    + intros n. change (S (0 + n)) with (S n). cbn [descend]. unfold bind. rewrite El, E1.
      unfold no_visit at 1. unfold ret at 1. by rewrite E2.
Qed.
End fuel.

Section cost.
Context {K : Type} {HS V CK U : Type} (F : fam K HS V CK U) (L : layout K V CK) (s : N).
Local Notation D := 240.
Local Notation Good := (Good F L D s).
Variable dig : N -> K -> nat -> N.
Hypothesis Hdig : ∀ s k d, nib F s k d = dig s k d.
Implicit Types (w : world V CK U) (T : tree K) (k : K) (h : loc).

Local Notation alone := (alone dig s).

Lemma alike_nibs n k k' : alike dig s n k k' = true <-> nibs F s k n = nibs F s k' n.
Proof.
  rewrite alike_iff. split.
  - intros H. unfold nibs. apply map_ext_in. intros i Hi%in_seq. rewrite !Hdig. apply H. lia.
  - intros H i Hi. apply (f_equal (λ l, l !! i)) in H. rewrite !nibs_lookup, !Hdig in H by done. congruence.
Qed.
Lemma alike_mono n m k k' : m <= n -> alike dig s n k k' = true -> alike dig s m k k' = true.
Proof. rewrite !alike_iff. intros Hm H i Hi. apply H. lia. Qed.

(** A key with the first digits of the hole is below it. *)
Lemma in_hole T (c : list (@frame K)) t q k k' p : wf T -> placed F s T -> plug c t = T -> rads c = nibs F s k (length c) ->
  alike dig s (length c) k k' = true -> (q, (k', p)) ∈ pleaves [] T -> (q, (k', p)) ∈ pleaves (rads c) t.
Proof.
  intros Hwf Hpl HT Hr Ha Hin.
  assert (Hw : well F s (q, (k', p))) by (by eapply Forall_forall in Hpl). unfold well in Hw. simpl in Hw.
  rewrite <- HT in Hin, Hwf. rewrite pleaves_plug, elem_of_app in Hin. destruct Hin as [Hin|Hin]; [|done].
  pose proof (ctxpl_diverge _ _ _ Hwf Hin) as Hd. simpl in Hd. apply alike_nibs in Ha.
  rewrite Hw, Hr, Ha in Hd. by apply nibs_no_diverge in Hd.
Qed.
Lemma in_slot T (c : list (@frame K)) cs q k k' p : placed F s T -> (q, (k', p)) ∈ pleaves [] T ->
  alike dig s (S (length c)) k k' = true -> (q, (k', p)) ∈ cspl (rads c) cs ->
  ∃ c0, c0 ∈ cs /\ c0.1 = nib F s k (length c) /\ (q, (k', p)) ∈ pleaves (rads c ++ [c0.1]) c0.2.
Proof.
  intros Hpl Hin Ha Hc.
  assert (Hw : well F s (q, (k', p))) by (by eapply Forall_forall in Hpl). unfold well in Hw. simpl in Hw.
  apply cspl_pre in Hc as (c0 & s0 & Hc0 & Hin0 & Hq). simpl in Hq. exists c0. split; [done|]. split; [|done].
  rewrite Hw in Hq. apply (f_equal (λ l, l !! length c)) in Hq.
  rewrite <- (rads_length c) in Hq at 2. rewrite list_lookup_middle in Hq by done.
  pose proof (lookup_lt_Some _ _ _ Hq) as Hlt. rewrite nibs_length in Hlt.
  rewrite nibs_lookup in Hq by done. injection Hq as <-. rewrite alike_iff in Ha. rewrite !Hdig. symmetry. apply Ha. lia.
Qed.

(** Where a traversal stops at most one key is left, and before that more. *)
Lemma alone_stop w h T k (c : list (@frame K)) a cs n : Good w h T -> plug c (Node a cs) = T -> rads c = nibs F s k (length c) ->
  (∀ q1 q2 x1 x2, (q1, x1) ∈ pleaves [] T -> (q2, x2) ∈ pleaves [] T ->
     alike dig s (S (length c)) k x1.1 = true -> alike dig s (S (length c)) k x2.1 = true -> x1.1 = x2.1) ->
  0 < n -> alone (map fst (leaves T)) n k <-> length c < n.
Proof.
  intros HG HT Hr Hone Hn. pose proof (Good_wf _ _ _ _ _ _ _ HG) as Hwf. assert (Hpl : placed F s T) by apply HG.
  split.
  - intros Ha. destruct (decide (length c < n)) as [|Hge]; [done|exfalso].
    assert (Hc : canon_root T) by apply HG. rewrite <- HT in Hc. apply canon_root_plug in Hc as (_ & Hcs & Hok).
    assert (Hcan : canon (Node a cs)).
    { apply canon_node. split; [|done]. apply Hok. intros ->. simpl in Hge. lia. }
    assert (Hwft : wf (Node a cs)) by (rewrite <- HT in Hwf; by apply wf_plug in Hwf).
    destruct (canon_inhabited _ Hcan (rads c)) as [e He].
    destruct (canon_other _ Hcan ltac:(done) Hwft _ _ He) as (e' & He' & Hne & _).
    assert (Hin : ∀ e, e ∈ pleaves (rads c) (Node a cs) -> e ∈ pleaves [] T /\ alike dig s n k e.2.1 = true).
    { intros [q [k' p]] Hx. assert (HxT : (q, (k', p)) ∈ pleaves [] T).
      { rewrite <- HT, pleaves_plug, elem_of_app. by right. }
      split; [done|]. cbn [fst snd]. apply (alike_mono (length c)); [lia|]. apply alike_nibs. rewrite <- Hr.
      assert (Hw : well F s (q, (k', p))) by (by eapply Forall_forall in Hpl). unfold well in Hw. simpl in Hw.
      apply pleaves_pre in Hx as (s0 & Hq & _). simpl in Hq.
      assert (Hlen : length c <= length q) by (rewrite Hq, app_length, rads_length; lia).
      apply (f_equal (take (length c))) in Hq. rewrite take_app_alt in Hq by (by rewrite rads_length).
      rewrite <- Hq, Hw. apply list_eq. intros i. destruct (decide (i < length c)).
      - rewrite lookup_take, !nibs_lookup by lia. done.
      - rewrite lookup_take_ge by lia. symmetry. apply lookup_ge_None_2. rewrite nibs_length. lia. }
    destruct (Hin _ He) as [H1 H2]. destruct (Hin _ He') as [H3 H4].
    apply (entries_keys F L D s w h T e' e HG H3 H1 Hne).
    apply Ha; [| |done|done]; rewrite <- (pleaves_leaves T []), map_map; apply elem_of_list_In, in_map_iff; eexists;
      (split; [reflexivity|by apply elem_of_list_In]).
  - intros Hlt k1 k2 H1 H2 Ha1 Ha2.
    rewrite <- (pleaves_leaves T []), map_map in H1, H2.
    apply elem_of_list_In, in_map_iff in H1 as ([q1 x1] & <- & H1). apply elem_of_list_In, in_map_iff in H2 as ([q2 x2] & <- & H2).
    apply elem_of_list_In in H1, H2.
    eapply Hone; [exact H1|exact H2|..]; (eapply alike_mono; [|eassumption]; lia).
Qed.

Lemma find_levels w h T k fuel : Good w h T -> 256 <= fuel ->
  ∃ j, j <= D /\ (∀ n, n <= j -> find F n (Some h) k w = Hang) /\
    (∀ n, j < n -> find F n (Some h) k w = find F fuel (Some h) k w) /\
    (∀ n, 0 < n -> alone (map fst (leaves T)) n k <-> j < n).
Proof.
  intros HG Hf. destruct (load_seed _ _ _ _ _ _ _ HG) as (rt & Hrt & Hs).
  pose proof (Good_wf _ _ _ _ _ _ _ HG) as Hwf. assert (Hpl : placed F s T) by apply HG.
  assert (Hfind : ∀ x w', descend F no_visit fuel s k (f_start F s k) (RootRef h) 0 tt w = Ret x w' ->
    ∃ j, fuel = S (j + fuel_left x) /\ (∀ n, n <= j -> find F n (Some h) k w = Hang) /\
      (∀ n, j < n -> find F n (Some h) k w = find F fuel (Some h) k w)).
  { intros x w' Hd. destruct (descend_fuel F s k fuel _ _ _ _ _ _ Hd) as (j & Hj & Hlow & Hhigh).
    exists j. split; [done|]. split; intros n Hn; unfold find; rewrite !(bind_Ret _ _ _ _ _ (load_root_step _ _ _ Hrt)), Hs.
    - unfold bind. by rewrite Hlow.
    - rewrite (bind_Ret _ _ _ _ _ Hd). destruct n as [|n]; [lia|].
      pose proof (Hhigh (n - j)) as Hn'. replace (j + (n - j)) with n in Hn' by lia.
      rewrite (bind_Ret _ _ _ _ _ Hn'). by destruct x. }
  destruct (descend_plain F L D s (le_n _) w h T k fuel HG Hf) as (c & a & [(cs & Hst & Hd)|(bef & k' & p & aft & Hst & Hd)]).
  - assert (Hlen : length c <= D).
    { destruct Hst as (HT & _). assert (Hh : hgt T <= S D) by apply HG. rewrite <- HT in Hh.
      pose proof (hgt_plug c (Node a cs)) as Hp. simpl hgt in Hp. lia. }
    destruct (Hfind _ _ Hd) as (j & Hj & Hlow & Hhigh). simpl in Hj. assert (j = length c) as -> by lia.
    exists (length c). split; [done|]. split; [done|]. split; [done|]. intros n Hn.
    destruct Hst as (HT & Hr & Hno). eapply (alone_stop w h T k c a cs); try done.
    intros q1 q2 [k1 p1] x2 H1 H2 Ha1 Ha2. exfalso. cbn [fst] in Ha1.
    pose proof (in_hole T c _ _ _ _ _ Hwf Hpl HT Hr ltac:(eapply alike_mono; [|exact Ha1]; lia) H1) as Hh.
    rewrite pleaves_node in Hh. destruct (in_slot T c cs _ _ _ _ Hpl H1 Ha1 Hh) as (c0 & Hc0 & Hr0 & _).
    apply Hno. rewrite <- Hr0. apply elem_of_list_In, in_map. by apply elem_of_list_In.
  - assert (Hlen : length c <= D).
    { destruct Hst as (HT & _). assert (Hh : hgt T <= S D) by apply HG. rewrite <- HT in Hh.
      pose proof (hgt_plug c (Node a (bef ++ (nib F s k (length c), Leaf k' p) :: aft))) as Hp. simpl hgt in Hp. lia. }
    destruct (Hfind _ _ Hd) as (j & Hj & Hlow & Hhigh). simpl in Hj. assert (j = length c) as -> by lia.
    exists (length c). split; [done|]. split; [done|]. split; [done|]. intros n Hn.
    destruct Hst as (HT & Hr). eapply (alone_stop w h T k c a); try done.
    assert (Honly : ∀ q x, (q, x) ∈ pleaves [] T -> alike dig s (S (length c)) k x.1 = true -> x.1 = k').
    { intros q [k1 p1] H1 Ha1. cbn [fst] in *.
      pose proof (in_hole T c _ _ _ _ _ Hwf Hpl HT Hr ltac:(eapply alike_mono; [|exact Ha1]; lia) H1) as Hh.
      rewrite pleaves_node in Hh. destruct (in_slot T c _ _ _ _ _ Hpl H1 Ha1 Hh) as (c0 & Hc0 & Hr0 & Hin0).
      assert (c0 = (nib F s k (length c), Leaf k' p)) as ->.
      { rewrite <- HT in Hwf. apply wf_plug, wf_node in Hwf as [Hrs _]. rewrite map_app in Hrs. cbn [map fst] in Hrs.
        apply radixes_notin in Hrs. rewrite elem_of_app in Hrs.
        apply elem_of_app in Hc0 as [Hc0|[->|Hc0]%elem_of_cons]; [|done|]; exfalso; apply Hrs; [left|right];
          rewrite <- Hr0; apply elem_of_list_In, in_map; by apply elem_of_list_In. }
      cbn [snd pleaves] in Hin0. apply elem_of_list_singleton in Hin0. by injection Hin0. }
    intros q1 q2 x1 x2 H1 H2 Ha1 Ha2. rewrite (Honly _ _ H1 Ha1), (Honly _ _ H2 Ha2). done.
Qed.

(** The same for the methods. *)
Lemma get_levels zero w h T k fuel n : Good w h T -> 256 <= fuel -> 0 < n ->
  (alone (map fst (leaves T)) n k ->
    get F n zero (Some h) k w = get F fuel zero (Some h) k w /\ val F n zero (Some h) k w = val F fuel zero (Some h) k w /\
    ptr_of F n (Some h) k w = ptr_of F fuel (Some h) k w /\ has F n (Some h) k w = has F fuel (Some h) k w) /\
  (¬ alone (map fst (leaves T)) n k ->
    get F n zero (Some h) k w = Hang /\ val F n zero (Some h) k w = Hang /\
    ptr_of F n (Some h) k w = Hang /\ has F n (Some h) k w = Hang).
Proof.
  intros HG Hf Hn. destruct (find_levels w h T k fuel HG Hf) as (j & _ & Hlow & Hhigh & Ha). rewrite (Ha n Hn). split.
  - intros Hj. unfold get, val, ptr_of, has, bind. rewrite (Hhigh n Hj). done.
  - intros Hj. unfold get, val, ptr_of, has, bind. rewrite (Hlow n) by lia. done.
Qed.
Lemma alone_max w h T k n : Good w h T -> D < n -> alone (map fst (leaves T)) n k.
Proof. intros HG Hn. destruct (find_levels w h T k 256 HG (le_n _)) as (j & Hj & _ & _ & Ha). apply Ha; lia. Qed.
End cost.
