(** Additions that do not end: keys with the same digits that are not equal, in
    every reachable state of the map and set types that hash the bytes of keys. *)
From stdpp Require Import base numbers list gmap.
From Verif Require Import GoInt Mem Hash Amt Families BitsFacts Steps Tree Rep Paths Descend Insert Split Delete Remove Core Scan Order Heap Spec SpecFacts HashFacts Client Types Refine RefineSet Instances Pack Levels Shape Weak Place WeakHeap Rekey Bag WeakRuns WeakTypes WeakMap WeakSet WeakSim WeakPack PathKeep Alike.
Local Open Scope nat_scope.

(** ** Seeds *)
Lemma New_seed {V CK U} s (w : world V CK U) h w' : New s w = Ret (Some h) w' -> w_ok w ->
  ∃ rt, w_mem w' !! h = Some (BRoot rt) /\ rt_seed rt = s.
Proof.
  intros H Hw. unfold New, new_root, new_link_array, alloc, bind, ret in H. injection H as <- <-. simpl.
  eexists. split; [apply lookup_insert|done].
Qed.

Section seeds.
Context {K V CK U : Type} (zero : V) (fuel : nat) (api : mapapi K V CK U) (u0 : U).
Hypothesis Ha : any_map zero fuel api.
Lemma wrun_seed D clob tr w : wrun api D clob u0 tr w -> w_ok w /\
  ∀ s h, (MNew s, RHandle h) ∈ tr -> ∃ rt, w_mem w !! h = Some (BRoot rt) /\ rt_seed rt = s.
Proof.
  induction 1 as [|tr w op res w' Hr [Hw IH] Ho Hc Hsh|tr w p v ck ck' Hcl Hr [Hw IH] Hp].
  - split; [|intros s h Hin; by apply elem_of_nil in Hin]. intros l y Hy. simpl in Hy. by rewrite lookup_empty in Hy.
  - pose proof (mcall_pk (S:=λ _, False) zero fuel api op Ha ltac:(auto) w Hw) as Hk. rewrite Hc in Hk. destruct Hk as [Hw' Hk].
    split; [done|]. intros s h [[= <- <-]|Hin]%elem_of_cons.
    + cbn [mcall] in Hc. unfold bind in Hc. destruct (New s w) as [[x|] w1| | |] eqn:E; [|done..].
      injection Hc as -> ->. by eapply New_seed.
    + destruct (IH s h Hin) as (rt & Hrt & Hs). destruct (Hk h rt Hrt) as (rt' & Hrt' & Hs' & _). exists rt'. split; [done|congruence].
  - split.
    + intros l y Hy. simpl in *. destruct (decide (l = p)) as [->|Hne]; [by eapply Hw|].
      rewrite lookup_insert_ne in Hy by done. by eapply Hw.
    + intros s h Hin. destruct (IH s h Hin) as (rt & Hrt & Hs). exists rt. split; [|done]. simpl.
      rewrite lookup_insert_ne; [done|]. intros ->. congruence.
Qed.
End seeds.
Section sseeds.
Context {K CK U : Type} (fuel : nat) (b : bool) (api : setapi K unit CK U) (u0 : U).
Hypothesis Ha : any_set fuel b api.
Lemma swrun_seed D clob tr w : swrun api D clob u0 tr w -> w_ok w /\
  ∀ s h, (SNew s, THandle h) ∈ tr -> ∃ rt, w_mem w !! h = Some (BRoot rt) /\ rt_seed rt = s.
Proof.
  induction 1 as [|tr w op res w' Hr [Hw IH] Ho Hc Hsh|tr w p v ck ck' Hcl Hr [Hw IH] Hp].
  - split; [|intros s h Hin; by apply elem_of_nil in Hin]. intros l y Hy. simpl in Hy. by rewrite lookup_empty in Hy.
  - pose proof (scall_pk (S:=λ _, False) fuel b api op Ha ltac:(auto) w Hw) as Hk. rewrite Hc in Hk. destruct Hk as [Hw' Hk].
    split; [done|]. intros s h [[= <- <-]|Hin]%elem_of_cons.
    + cbn [scall] in Hc. unfold bind in Hc. destruct (New s w) as [[x|] w1| | |] eqn:E; [|done..].
      injection Hc as -> ->. by eapply New_seed.
    + destruct (IH s h Hin) as (rt & Hrt & Hs). destruct (Hk h rt Hrt) as (rt' & Hrt' & Hs' & _). exists rt'. split; [done|congruence].
  - split.
    + intros l y Hy. simpl in *. destruct (decide (l = p)) as [->|Hne]; [by eapply Hw|].
      rewrite lookup_insert_ne in Hy by done. by eapply Hw.
    + intros s h Hin. destruct (IH s h Hin) as (rt & Hrt & Hs). exists rt. split; [|done]. simpl.
      rewrite lookup_insert_ne; [done|]. intros ->. congruence.
Qed.
End sseeds.

(** ** The types *)
Inductive alike_map {V U : Type} (zero : V) (fuel : nat) :
    ∀ {K : Type}, mapapi K V K U -> (K -> K -> bool) -> (N -> K -> nat -> N) -> Prop :=
  | alike_StringMap sum64 : alike_map zero fuel (StringMap_api sum64 zero fuel) same_bytes (λ s k, digit sum64 s k)
  | alike_BytesMap sum64 : alike_map zero fuel (BytesMap_api sum64 zero fuel) same_bytes (λ s k, digit sum64 s k)
  | alike_ArrMap K sum64 keq KeyBytes :
      alike_map zero fuel (K:=K) (ArrMap_api sum64 zero fuel keq KeyBytes) (swapped keq) (λ s k, digit sum64 s (KeyBytes k)).
Inductive alike_set {U : Type} (fuel : nat) :
    bool -> ∀ {K : Type}, setapi K unit K U -> (K -> K -> bool) -> (N -> K -> nat -> N) -> Prop :=
  | alike_StringSet sum64 : alike_set fuel true (StringSet_api sum64 fuel) same_bytes (λ s k, digit sum64 s k)
  | alike_BytesSet sum64 : alike_set fuel false (BytesSet_api sum64 fuel) same_bytes (λ s k, digit sum64 s k)
  | alike_ArrSet K sum64 keq KeyBytes :
      alike_set fuel true (K:=K) (ArrSet_api sum64 fuel keq KeyBytes) (swapped keq) (λ s k, digit sum64 s (KeyBytes k)).

Section hang.
Context {K V U : Type} (sum64 : N -> bytes -> N) (kbytes : K -> bytes) (eq : K -> K -> bool).
Local Notation F := (kvF (U:=U) sum64 kbytes V eq).
Local Notation L := (kv_layout (K:=K) (V:=V) (λ _, True)).
Definition allplaced (s : N) (T : tree K) : Prop := placen F (λ _ _ _, True) s T.
Lemma allplaced_ok : place_ok F allplaced.
Proof. apply (placen_ok F). apply kv_right. Qed.
Lemma allplaced_new s a : allplaced s (Node a []).
Proof. apply Forall_nil_2. Qed.
Lemma allplaced_spot s T k k' p : allplaced s T -> (k', p) ∈ leaves T ->
  (∀ d, digit sum64 s (kbytes k) d = digit sum64 s (kbytes k') d) -> spot F s T k k' p.
Proof.
  intros HP Hin Hd. destruct (entry_of T k' p Hin) as (q & Hq). exists q. split; [|done].
  unfold allplaced, placen in HP. rewrite Forall_forall in HP. apply HP in Hq. specialize (Hq I). unfold well in Hq. cbn [fst snd] in Hq.
  rewrite Hq at 1. apply map_ext. intros d. by rewrite !kv_dig.
Qed.
Lemma hang_alike op fuel w G h s T k k' p : WInv L allplaced 254 w G -> G !! h = Some (s, T) -> 256 <= fuel ->
  (k', p) ∈ leaves T -> eq k k' = false ->
  (∀ d, digit sum64 s (kbytes k) d = digit sum64 s (kbytes k') d) -> insert F op fuel (Some h) k w = Hang.
Proof.
  intros HI Hh Hf Hin E Hd. destruct (wi_good _ _ _ _ _ HI _ _ _ Hh) as [HM HP].
  eapply (insert_alike F L (kv_fam_ok _ _ _ _ _) 254 s ltac:(lia)); [exact HM|by eapply wi_ok|done|done|by eapply allplaced_spot|done|].
  intros n d ch Hlt Hc. apply (kv_right sum64 kbytes V eq) in Hc as ->; [|lia]. split.
  - change (nib F s k' d = nib F s k d). by rewrite !kv_dig.
  - intros m. pose proof (stream_agree sum64 kbytes F eq_refl eq_refl s k k' Hd m d) as Hx.
    unfold u8 in Hx. rewrite N.mod_small in Hx by lia. exact Hx.
Qed.
End hang.

(** ** Runs *)
Inductive apack {K V U : Type} (zero : V) (fuel : nat) (api : mapapi K V K U)
    (eq : K -> K -> bool) (dig : N -> K -> nat -> N) (over : bool) : Prop :=
  APack (sum64 : N -> bytes -> N) (kbytes : K -> bytes) (lost stable : bool)
    (sop : K -> V -> insop V K U) (mdop : K -> (ptr -> bool -> M V K U unit) -> insop V K U) (vs : V -> V)
    (Hdig : dig = λ s k, digit sum64 s (kbytes k))
    (Hst : stable = true -> ∀ k k', eq k k' = true -> kbytes k = kbytes k') (Hover : over = true -> stable = true)
    (Hvs : ∀ v, vs v = v \/ lost = true /\ vs v = zero)
    (Hsop : ∀ k v, io_found (sop k v) = (λ iv, store_val (lk_ptr iv) v) /\
      io_new (sop k v) = cellnew (kv_layout (λ _, True)) v k /\ io_split (sop k v) = cellnew (kv_layout (λ _, True)) (vs v) k /\ (io_check (sop k v) = true -> over = true))
    (Hmop : ∀ k f,
      io_found (mdop k f) = (λ iv, match lk_ptr iv with Nil => panic | At p => f (At p) true end) /\
      io_new (mdop k f) = modnew (kv_layout (λ _, True)) zero k f /\ io_split (mdop k f) = modnew (kv_layout (λ _, True)) zero k f /\ (io_check (mdop k f) = true -> over = true))
    (HSet : ∀ (oh : option loc) k v, ma_Set api oh k v = insert (kvF sum64 kbytes V eq) (sop k v) fuel oh k)
    (HMod : ∀ (oh : option loc) k f, ma_Mod api oh k f = insert (kvF sum64 kbytes V eq) (mdop k f) fuel oh k)
    (HDel : ∀ (oh : option loc) k, ma_Del api oh k = delete (kvF sum64 kbytes V eq) fuel oh k)
    (HGet : ∀ (oh : option loc) k, ma_Get api oh k = get (kvF sum64 kbytes V eq) fuel zero oh k)
    (HVal : ∀ (oh : option loc) k, ma_Val api oh k = val (kvF sum64 kbytes V eq) fuel zero oh k)
    (HPtr : ∀ (oh : option loc) k, ma_Ptr api oh k = ptr_of (kvF sum64 kbytes V eq) fuel oh k)
    (HAll : ∀ (oh : option loc) f, ma_All api oh f = all_map (kvF sum64 kbytes V eq) fuel oh f).

Inductive aspack {K U : Type} (fuel : nat) (api : setapi K unit K U)
    (eq : K -> K -> bool) (dig : N -> K -> nat -> N) (inverted : bool) : Prop :=
  ASPack (sum64 : N -> bytes -> N) (kbytes : K -> bytes) (aop : K -> insop unit K U)
    (Hdig : dig = λ s k, digit sum64 s (kbytes k))
    (Haop : ∀ k, io_found (aop k) = (λ _, ret tt) /\
      io_new (aop k) = cellnew (kv_layout (λ _, True)) tt k /\ io_split (aop k) = cellnew (kv_layout (λ _, True)) tt k /\ io_check (aop k) = false)
    (HAdd : ∀ (oh : option loc) k, sa_Add api oh k = insert (kvF sum64 kbytes unit eq) (aop k) fuel oh k)
    (HDel : ∀ (oh : option loc) k, sa_Del api oh k = delete_gen (kvF sum64 kbytes unit eq) (if inverted then (λ b, b) else negb) fuel oh k)
    (HHas : ∀ (oh : option loc) k, sa_Has api oh k = has (kvF sum64 kbytes unit eq) fuel oh k)
    (HAll : ∀ (oh : option loc) f, sa_All api oh f = all_set (kvF sum64 kbytes unit eq) fuel oh f).

(** Set and Mod of a key. *)
Definition puts {K V U : Type} (h : positive) (k : K) (op : mop K V U) : Prop :=
  match op with MSet h' k' _ | MMod h' k' _ => h' = h /\ k' = k | _ => False end.

(** An entry whose key equals nothing, not even itself, stays for ever. *)
Section nan.
Context {K V U : Type} (eq : K -> K -> bool) (zero : V) (lost stable : bool) (u0 : U) (k : K).
Hypothesis Hk : ∀ k', eq k k' = false /\ eq k' k = false.
Implicit Types (σ : bstate K V U).
Lemma bput_nan l σ h1 k1 g σ' h B p : bput eq zero false stable l σ h1 k1 g σ' -> bs_map σ !! h = Some B -> (k, p) ∈ bg_ent B ->
  ∃ B', bs_map σ' !! h = Some B' /\ (k, p) ∈ bg_ent B'.
Proof.
  intros (B1 & HB1 & Hput) HB Hin. destruct (bg_look B1 k1) as [q|].
  - destruct Hput as (v & _ & ->). eauto.
  - destruct Hput as (q & v & E & look & _ & _ & [HE|[? _]] & _ & _ & _ & ->); [|done]. cbn [bs_map].
    destruct (decide (h = h1)) as [->|Hne].
    + rewrite lookup_insert. eexists. split; [done|]. cbn [bg_ent]. rewrite HE. rewrite HB in HB1. injection HB1 as <-. by right.
    + rewrite lookup_insert_ne by done. eauto.
Qed.
Lemma bstep_nan σ op res σ' h B p : bstep eq zero lost false stable σ op res σ' -> bs_map σ !! h = Some B -> (k, p) ∈ bg_ent B ->
  ∃ B', bs_map σ' !! h = Some B' /\ (k, p) ∈ bg_ent B'.
Proof.
  intros Hst HB Hin. destruct op as [s|h1 k1 v|h1 k1 f|h1 k1|h1 k1|h1 k1|h1 k1|h1|h1|h1 f|p1|p1 v]; simpl in Hst.
  - destruct Hst as (h1 & look & _ & Hn & _ & ->). cbn [bs_map]. rewrite lookup_insert_ne by congruence. eauto.
  - destruct Hst as [_ Hput]. by eapply bput_nan.
  - destruct Hst as [_ Hput]. by eapply bput_nan.
  - destruct Hst as (_ & B1 & HB1 & Hd). destruct (bg_look B1 k1) as [q|]; [|subst; eauto].
    destruct Hd as (k' & E & look & He & HE & _ & _ & ->). cbn [bs_map]. destruct (decide (h = h1)) as [->|Hne].
    + rewrite lookup_insert. eexists. split; [done|]. cbn [bg_ent]. rewrite HB in HB1. injection HB1 as <-. rewrite HE in Hin.
      apply elem_of_cons in Hin as [[= <- <-]|]; [|done]. destruct (Hk k1) as [_ Hx]. congruence.
    + rewrite lookup_insert_ne by done. eauto.
  - destruct Hst as [-> _]. eauto.
  - destruct Hst as [-> _]. eauto.
  - destruct Hst as [-> _]. eauto.
  - destruct Hst as [-> _]. eauto.
  - destruct Hst as [-> _]. eauto.
  - destruct Hst as (_ & B1 & es & _ & _ & ->). eauto.
  - destruct Hst as [-> _]. eauto.
  - destruct Hst as (_ & _ & ->). eauto.
Qed.
Lemma bspec_nan tr σ : bspec eq zero lost false stable untouched u0 tr σ -> ∀ h op0 res0, puts h k op0 -> (op0, res0) ∈ tr ->
  ∃ B p, bs_map σ !! h = Some B /\ (k, p) ∈ bg_ent B.
Proof.
  induction 1 as [|tr σ op res σ' Hs IH Hstep|tr σ p k0 σ' Hs IH Hcl Hkey]; intros h op0 res0 Hop Hset.
  - by apply elem_of_nil in Hset.
  - apply elem_of_cons in Hset. destruct Hset as [[= <- <-]|Hset].
    + assert (∃ l g, bput eq zero false stable l σ h k g σ') as (l & g & B & HB & Hput).
      { destruct op0; try done; destruct Hop as [-> ->], Hstep as [_ Hput]; eauto. }
      destruct (bg_look B k) as [p|] eqn:El.
      * destruct (bspec_good _ _ _ _ _ _ _ _ _ Hs h B HB) as [Hf _]. apply Hf in El as (k' & _ & E). destruct (Hk k'). congruence.
      * destruct Hput as (q & v & E & look & _ & _ & [HE|[? _]] & _ & _ & _ & ->); [|done]. cbn [bs_map].
        rewrite lookup_insert. eexists _, q. split; [done|]. cbn [bg_ent]. rewrite HE. left.
    + destruct (IH _ _ _ Hop Hset) as (B & p & HB & Hin). destruct (bstep_nan _ _ _ _ _ _ _ Hstep HB Hin) as (B' & ? & ?). eauto.
  - destruct (IH _ _ _ Hop Hset) as (B & p1 & HB & Hin). destruct Hkey as (_ & _ & _ & Hb). specialize (Hb h). rewrite HB in Hb.
    destruct (bs_map σ' !! h) as [B'|]; [|done]. destruct Hb as (He & _). exists B', p1. split; [done|]. rewrite He.
    apply elem_of_list_fmap. exists (k, p1). split; [|done]. unfold rekeyed. cbn [snd]. rewrite decide_False; [done|].
    intros ->. by eapply Hcl.
Qed.
End nan.

Section maps.
Context {V U : Type} (zero : V) (fuel : nat).
Hypothesis Hfuel : 256 <= fuel.
Local Notation top := (λ _, True).

Lemma alike_any {K} (api : mapapi K V K U) eq dig : alike_map zero fuel api eq dig -> any_map zero fuel api.
Proof. by destruct 1; constructor. Qed.

Lemma arr_pack K sum64 keq KeyBytes : apack (K:=K) (U:=U) zero fuel (ArrMap_api sum64 zero fuel keq KeyBytes) (swapped keq)
  (λ s k, digit sum64 s (KeyBytes k)) false.
Proof.
  eapply (APack _ _ _ _ _ _ sum64 KeyBytes true false (λ k v, with_split (set_op (arr_fam sum64 keq KeyBytes) k v) (f_new (arr_fam sum64 keq KeyBytes) zero k))
    (mod_op (arr_fam sum64 keq KeyBytes) zero) (λ _, zero)); try done.
  by right.
Qed.
Lemma alike_pack {K} (api : mapapi K V K U) eq dig : alike_map zero fuel api eq dig ->
  ∃ over, apack zero fuel api eq dig over.
Proof.
  destruct 1 as [sum64|sum64|K sum64 keq KeyBytes].
  - exists false. eapply (APack _ _ _ _ _ _ sum64 (λ k, k) false true (set_op (string_fam sum64)) (mod_op (string_fam sum64) zero) (λ v, v)); try done.
    + intros _. apply same_bytes_eq.
    + by left.
  - exists true. eapply (APack _ _ _ _ _ _ sum64 (λ k, k) false true (λ k v, with_check (set_op (bytes_fam sum64) k v)) (λ k f, with_check (mod_op (bytes_fam sum64) zero k f)) (λ v, v)); try done.
    + intros _. apply same_bytes_eq.
    + by left.
  - exists false. apply arr_pack.
Qed.

Section run.
Context {K : Type} (api : mapapi K V K U) (eq : K -> K -> bool) (dig : N -> K -> nat -> N) (over : bool) (u0 : U).
Hypothesis Hany : any_map zero fuel api.
Hypothesis Hp : apack zero fuel api eq dig over.
Local Notation wrun := (wrun api 254 untouched u0).

Lemma alike_run : ∃ lost stable (R : world V K U -> bstate K V U -> Prop),
  wsim api eq zero lost over stable untouched R /\
  (∀ w σ h B, R w σ -> bs_map σ !! h = Some B -> ∃ es : list (K * V),
    (∀ k v, (k, v) ∈ es -> ∃ p, (k, p) ∈ bg_ent B) /\
    ∀ g : U -> K -> V -> U, ∃ w', mcall api (MAll h (λ u k v, (g u k v, v, true))) w = Ret RUnit w' /\
     w_usr w' = foldl (λ u e, g u e.1 e.2) (w_usr w) es) /\
  ∀ tr w σ s h B k k' p, wrun tr w -> R w σ -> (MNew s, RHandle h) ∈ tr -> bs_map σ !! h = Some B -> (k', p) ∈ bg_ent B ->
    eq k k' = false -> (∀ d, dig s k d = dig s k' d) ->
    (∀ v, mcall api (MSet h k v) w = Hang) /\ (∀ f, mcall api (MMod h k f) w = Hang).
Proof.
  destruct Hp as [sum64 kbytes lost stable sop mdop vs]. subst dig.
  set (F := kvF (U:=U) sum64 kbytes V eq). set (L := kv_layout (K:=K) (V:=V) (λ _, True)). set (PL := allplaced (V:=V) (U:=U) sum64 kbytes eq).
  assert (HF : fam_ok F L) by apply kv_fam_ok. assert (Hall : ∀ k, ly_ok L k) by done.
  assert (HPnew : ∀ s a, PL s (Node a [])) by apply allplaced_new. assert (HP : place_ok F PL) by apply allplaced_ok.
  assert (HA : walike F L PL F) by done.
  assert (HB : stable = true -> wstable F F) by (intros Hs; by apply kv_stable, Hst).
  exists lost, stable, (WeakMap.Rel F L PL). split_and!; [constructor|..].
  - intros u. eapply (WeakMap.Rel_init F L PL); eauto.
  - intros w σ HR. by destruct HR as (_&_&_&_&?).
  - intros w σ h B k Hw HB2. by apply (WeakMap.read_rel F L PL HF Hall eq_refl zero fuel Hfuel api HGet HVal HPtr).
  - intros w σ op Hw Ho. exact (WeakMap.step_ok F L PL HF Hall (λ _ _, eq_refl) (λ _ _ _ _, eq_refl) eq_refl HPnew HP zero fuel Hfuel lost over stable F F sop mdop vs HA HA HB HB Hover Hvs Hsop Hmop api HSet HMod HDel HGet HVal HPtr HAll w σ op Hw Ho).
  - intros w σ p v ck ck' [].
  - intros w σ h Hw Hh. eapply (WeakMap.agree_rel F L PL); eauto.
  - intros w σ h B HR Hh. destruct HR as (G & HI & Hm & _ & _). rewrite Hm, lookup_fmap in Hh. destruct (G !! h) as [[s T]|] eqn:HG; [|done].
    injection Hh as <-. cbn [bg_ent bag_of snd]. pose proof (wi_good _ _ _ _ _ HI _ _ _ HG) as HT.
    assert (Hent : ∀ e, e ∈ went T -> is_Some (vals w !! e.2)).
    { intros [k p] Hin. destruct (went_block L PL 254 eq_refl _ _ _ _ _ _ HT Hin) as (v & _ & Hx). eauto. }
    exists (shown (vals w) (went T)). split.
    + intros k v Hin. unfold shown in Hin. apply elem_of_list_omap in Hin as ([k1 p] & Hin & Hx). simpl in Hx.
      destruct (vals w !! p); [|done]. injection Hx as -> ->. eauto.
    + intros g. destruct (WeakMap.all_spec F L PL HF Hall eq_refl fuel Hfuel (λ u k v, (g u k v, v, true)) w G h s T HI HG) as (w' & Hrun & _ & _ & Hu').
      exists w'. split; [cbn [mcall]; by rewrite HAll, (bind_Ret _ _ _ _ _ Hrun)|]. rewrite Hu'.
      destruct (each_shown g (vals w) (went T) (w_usr w) Hent) as [-> _]. done.
  - intros tr w σ s h B k k' p Hr HR Hin Hh Hent E Hd.
    destruct HR as (G & HI & Hm & _ & _). rewrite Hm, lookup_fmap in Hh. destruct (G !! h) as [[s' T]|] eqn:HG; [|done].
    injection Hh as <-. cbn [bg_ent bag_of] in Hent. apply went_in in Hent. cbn [snd] in Hent.
    assert (s' = s) as ->.
    { destruct (wrun_seed zero fuel api u0 Hany _ _ _ _ Hr) as [_ Hs]. destruct (Hs s h Hin) as (rt & Hrt & <-).
      destruct (wi_good _ _ _ _ _ HI _ _ _ HG) as [HM _]. destruct (MapI_seed _ _ _ _ _ _ HM) as (rt' & Hrt' & <-). congruence. }
    split.
    + intros v. cbn [mcall]. rewrite HSet. unfold bind. by erewrite (hang_alike sum64 kbytes eq).
    + intros f. cbn [mcall]. rewrite HMod. unfold bind. by erewrite (hang_alike sum64 kbytes eq).
Qed.

(** All tells the keys that are stored. *)
Theorem alike_hangs tr w s h : wrun tr w -> (MNew s, RHandle h) ∈ tr -> ∃ es : list (K * V),
  (∀ g : U -> K -> V -> U, ∃ w', mcall api (MAll h (λ u k v, (g u k v, v, true))) w = Ret RUnit w' /\
     w_usr w' = foldl (λ u e, g u e.1 e.2) (w_usr w) es) /\
  ∀ k k' v', (k', v') ∈ es -> eq k k' = false -> (∀ d, dig s k d = dig s k' d) ->
    (∀ v, mcall api (MSet h k v) w = Hang) /\ (∀ f, mcall api (MMod h k f) w = Hang).
Proof.
  intros Hr Hin. destruct alike_run as (lost & stable & R & HR & HA & Hh).
  destruct (sim_run _ _ _ _ _ _ _ _ _ HR _ _ Hr) as (σ & Hs & Hw).
  destruct (bspec_live _ _ _ _ _ _ _ _ _ Hs s h Hin) as [B HB].
  destruct (HA w σ h B Hw HB) as (es & Hes & Hall). exists es. split; [done|].
  intros k k' v' He. apply Hes in He as (p & He). by eapply Hh.
Qed.

(** A key that equals nothing, not even itself. *)
Theorem alike_nan tr w s h k op0 res0 k2 : over = false -> wrun tr w -> (MNew s, RHandle h) ∈ tr ->
  puts h k op0 -> (op0, res0) ∈ tr -> (∀ k', eq k k' = false /\ eq k' k = false) -> (∀ d, dig s k2 d = dig s k d) ->
  (∀ v, mcall api (MSet h k2 v) w = Hang) /\ (∀ f, mcall api (MMod h k2 f) w = Hang).
Proof.
  intros Ho Hr Hin Hput Hset Hk Hd. destruct alike_run as (lost & stable & R & HR & HA & Hh).
  destruct (sim_run _ _ _ _ _ _ _ _ _ HR _ _ Hr) as (σ & Hs & Hw).
  subst over. destruct (bspec_nan eq zero lost stable u0 k Hk _ _ Hs h op0 res0 Hput Hset) as (B & p & HB & He).
  destruct (Hk k2). by eapply Hh.
Qed.
End run.
End maps.

(** The same for sets. *)
Section snan.
Context {K U : Type} (eq : K -> K -> bool) (stable : bool) (u0 : U) (k : K).
Hypothesis Hk : ∀ k', eq k k' = false /\ eq k' k = false.
Implicit Types (σ : sbstate K U).
Lemma sbstep_nan σ op res σ' h B : sbstep eq false stable σ op res σ' -> sbs_set σ !! h = Some B -> k ∈ sb_keys B ->
  ∃ B', sbs_set σ' !! h = Some B' /\ k ∈ sb_keys B'.
Proof.
  intros Hst HB Hin. destruct op as [s|h1 k1|h1 k1|h1 k1|h1|h1|h1 f]; simpl in Hst.
  - destruct Hst as (h1 & look & _ & Hn & _ & ->). cbn [sbs_set]. rewrite lookup_insert_ne by congruence. eauto.
  - destruct Hst as (_ & B1 & HB1 & Hst). destruct (sb_has B1 k1); [subst; eauto|].
    destruct Hst as (E & has & HE & _ & _ & _ & ->). cbn [sbs_set]. destruct (decide (h = h1)) as [->|Hne].
    + rewrite lookup_insert. eexists. split; [done|]. cbn [sb_keys]. rewrite HE. rewrite HB in HB1. injection HB1 as <-. by right.
    + rewrite lookup_insert_ne by done. eauto.
  - destruct Hst as (_ & B1 & HB1 & [[_ ->]|(_ & k' & E & has & He & HE & _ & _ & ->)]); [eauto|].
    cbn [sbs_set]. destruct (decide (h = h1)) as [->|Hne].
    + rewrite lookup_insert. eexists. split; [done|]. cbn [sb_keys]. rewrite HB in HB1. injection HB1 as <-. rewrite HE in Hin.
      apply elem_of_cons in Hin as [<-|]; [|done]. destruct (Hk k1) as [_ Hx]. simpl in He. congruence.
    + rewrite lookup_insert_ne by done. eauto.
  - destruct Hst as [-> _]. eauto.
  - destruct Hst as [-> _]. eauto.
  - destruct Hst as [-> _]. eauto.
  - destruct Hst as (_ & B1 & es & _ & _ & ->). eauto.
Qed.
Lemma sbspec_finds tr σ : sbspec eq false stable untouched u0 tr σ ->
  ∀ h B, sbs_set σ !! h = Some B -> sfinds eq (sb_keys B) (sb_has B).
Proof.
  induction 1 as [|tr σ op res σ' Hs IH Hst|tr σ k0 k1 σ' Hs IH []]; intros h B HB; [done|].
  destruct op as [s|h1 k1|h1 k1|h1 k1|h1|h1|h1 f]; simpl in Hst.
  - destruct Hst as (h1 & look & _ & Hn & Hl & ->). cbn [sbs_set] in HB. destruct (decide (h = h1)) as [->|Hne].
    + rewrite lookup_insert in HB. injection HB as <-. intros k1 Hx. cbn [sb_has] in Hx. by rewrite Hl in Hx.
    + rewrite lookup_insert_ne in HB by done. by eapply IH.
  - destruct Hst as (_ & B1 & HB1 & Hst). destruct (sb_has B1 k1); [subst; by eapply IH|].
    destruct Hst as (E & has & HE & Hf & _ & _ & ->). cbn [sbs_set] in HB. destruct (decide (h = h1)) as [->|Hne].
    + rewrite lookup_insert in HB. by injection HB as <-.
    + rewrite lookup_insert_ne in HB by done. by eapply IH.
  - destruct Hst as (_ & B1 & HB1 & [[_ ->]|(_ & k' & E & has & He & HE & Hf & _ & ->)]); [by eapply IH|].
    cbn [sbs_set] in HB. destruct (decide (h = h1)) as [->|Hne].
    + rewrite lookup_insert in HB. by injection HB as <-.
    + rewrite lookup_insert_ne in HB by done. by eapply IH.
  - destruct Hst as [-> _]. by eapply IH.
  - destruct Hst as [-> _]. by eapply IH.
  - destruct Hst as [-> _]. by eapply IH.
  - destruct Hst as (_ & B1 & es & _ & _ & ->). by eapply IH.
Qed.
Lemma sbspec_nan tr σ : sbspec eq false stable untouched u0 tr σ -> ∀ h res0, (SAdd h k, res0) ∈ tr ->
  ∃ B, sbs_set σ !! h = Some B /\ k ∈ sb_keys B.
Proof.
  induction 1 as [|tr σ op res σ' Hs IH Hstep|tr σ k0 k1 σ' Hs IH []]; intros h res0 Hset.
  - by apply elem_of_nil in Hset.
  - apply elem_of_cons in Hset. destruct Hset as [[= <- <-]|Hset].
    + destruct Hstep as (_ & B & HB & Hput). destruct (sb_has B k) eqn:El.
      * apply (sbspec_finds _ _ Hs h B HB) in El as (k' & _ & E). destruct (Hk k'). congruence.
      * destruct Hput as (E & has & HE & _ & _ & _ & ->). cbn [sbs_set].
        rewrite lookup_insert. eexists. split; [done|]. cbn [sb_keys]. rewrite HE. left.
    + destruct (IH _ _ Hset) as (B & HB & Hin). by eapply sbstep_nan.
Qed.
End snan.

Section sets.
Context {U : Type} (fuel : nat).
Hypothesis Hfuel : 256 <= fuel.

Lemma alike_sany {b K} (api : setapi K unit K U) eq dig : alike_set fuel b api eq dig -> any_set fuel b api.
Proof. by destruct 1; constructor. Qed.
Lemma alike_spack {b K} (api : setapi K unit K U) eq dig : alike_set fuel b api eq dig -> aspack fuel api eq dig (negb b).
Proof.
  destruct 1 as [sum64|sum64|K sum64 keq KeyBytes].
  - by eapply (ASPack _ _ _ _ _ sum64 (λ k, k) (add_op (string_fam sum64) tt)).
  - by eapply (ASPack _ _ _ _ _ sum64 (λ k, k) (add_op (bytes_fam sum64) tt)).
  - by eapply (ASPack _ _ _ _ _ sum64 KeyBytes (add_op (arr_fam sum64 keq KeyBytes) tt)).
Qed.

Section run.
Context {K : Type} (b : bool) (api : setapi K unit K U) (eq : K -> K -> bool) (dig : N -> K -> nat -> N) (u0 : U).
Hypothesis Ht : alike_set fuel b api eq dig.
Local Notation swrun := (swrun api 254 untouched u0).

Lemma salike_run : ∃ (R : world unit K U -> sbstate K U -> Prop),
  (∀ tr w, swrun tr w -> ∃ σ, sbspec eq (negb b) false untouched u0 tr σ /\ R w σ) /\
  (∀ w σ h B, R w σ -> sbs_set σ !! h = Some B ->
    ∀ f : U -> K -> U * bool, ∃ w', scall api (SAll h f) w = Ret TUnit w' /\ w_usr w' = seach f (sb_keys B) (w_usr w)) /\
  ∀ tr w σ s h B k k', swrun tr w -> R w σ -> (SNew s, THandle h) ∈ tr -> sbs_set σ !! h = Some B -> k' ∈ sb_keys B ->
    eq k k' = false -> (∀ d, dig s k d = dig s k' d) -> scall api (SAdd h k) w = Hang.
Proof.
  destruct (alike_spack _ _ _ Ht) as [sum64 kbytes aop]. subst dig.
  set (F := kvF (U:=U) sum64 kbytes unit eq). set (L := kv_layout (K:=K) (V:=unit) (λ _, True)). set (PL := allplaced (V:=unit) (U:=U) sum64 kbytes eq).
  assert (HF : fam_ok F L) by apply kv_fam_ok. assert (Hall : ∀ k, ly_ok L k) by done.
  assert (HPnew : ∀ s a, PL s (Node a [])) by apply allplaced_new. assert (HP : place_ok F PL) by apply allplaced_ok.
  exists (WeakSet.Rel F L PL). split_and!.
  - intros tr w Hr.
    exact (WeakSet.run_rel F L PL HF Hall (λ _ _, eq_refl) (λ _ _ _ _, eq_refl) eq_refl HPnew HP tt fuel Hfuel (negb b) false ltac:(done) aop Haop api HAdd HDel HHas HAll untouched u0
      (λ _ _ (H : untouched _ _), match H with end) (λ _ _ (H : untouched _ _), match H with end) (λ _ _ (H : untouched _ _), match H with end) (λ _ _ (H : untouched _ _), match H with end) tr w Hr).
  - intros w σ h B HR Hh f. destruct HR as (G & HI & Hm & _). rewrite Hm, lookup_fmap in Hh. destruct (G !! h) as [[s T]|] eqn:HG; [|done].
    injection Hh as <-. cbn [sb_keys WeakSet.bag_of snd].
    eexists. split; [cbn [scall]; rewrite HAll; erewrite bind_Ret by (by eapply (WeakSet.all_spec F L PL)); done|done].
  - intros tr w σ s h B k k' Hr HR Hin Hh Hent E Hd.
    destruct HR as (G & HI & Hm & _). rewrite Hm, lookup_fmap in Hh. destruct (G !! h) as [[s' T]|] eqn:HG; [|done].
    injection Hh as <-. cbn [sb_keys WeakSet.bag_of snd] in Hent.
    apply elem_of_list_In, in_map_iff in Hent as ([k1 p] & <- & Hent). apply elem_of_list_In in Hent. cbn [fst] in *.
    assert (s' = s) as ->.
    { destruct (swrun_seed fuel b api u0 (alike_sany _ _ _ Ht) _ _ _ _ Hr) as [_ Hs]. destruct (Hs s h Hin) as (rt & Hrt & <-).
      destruct (wi_good _ _ _ _ _ HI _ _ _ HG) as [HM _]. destruct (MapI_seed _ _ _ _ _ _ HM) as (rt' & Hrt' & <-). congruence. }
    cbn [scall]. rewrite HAdd. unfold bind. by erewrite (hang_alike sum64 kbytes eq).
Qed.
Theorem salike_hangs tr w s h : swrun tr w -> (SNew s, THandle h) ∈ tr -> ∃ ks : list K,
  (∀ f : U -> K -> U * bool, ∃ w', scall api (SAll h f) w = Ret TUnit w' /\ w_usr w' = seach f ks (w_usr w)) /\
  ∀ k k', k' ∈ ks -> eq k k' = false -> (∀ d, dig s k d = dig s k' d) -> scall api (SAdd h k) w = Hang.
Proof.
  intros Hr Hin. destruct salike_run as (R & HR & HA & Hh). destruct (HR _ _ Hr) as (σ & Hs & Hw).
  destruct (sbspec_live _ _ _ _ _ _ _ Hs s h Hin) as [B HB]. exists (sb_keys B). split; [by eapply HA|].
  intros k k' He. by eapply Hh.
Qed.
Theorem salike_nan tr w s h k res0 k2 : b = true -> swrun tr w -> (SNew s, THandle h) ∈ tr ->
  (SAdd h k, res0) ∈ tr -> (∀ k', eq k k' = false /\ eq k' k = false) -> (∀ d, dig s k2 d = dig s k d) ->
  scall api (SAdd h k2) w = Hang.
Proof.
  intros Hb Hr Hin Hset Hk Hd. destruct salike_run as (R & HR & HA & Hh). destruct (HR _ _ Hr) as (σ & Hs & Hw).
  rewrite Hb in Hs. destruct (sbspec_nan eq false u0 k Hk _ _ Hs h res0 Hset) as (B & HB & He).
  destruct (Hk k2). by eapply Hh.
Qed.
End run.
End sets.
