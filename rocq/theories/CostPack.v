(** Every map and set type of CostTypes.v meets the hypotheses of Cost.v. *)
From stdpp Require Import base numbers list gmap.
From Verif Require Import GoInt Mem Hash Amt Families BitsFacts Steps Tree Rep Paths Descend Insert Split Delete Remove Core Scan Order Heap Spec SpecFacts HashFacts Client Types Refine RefineSet Instances Pack Guards CostTypes Cost.
From Verif Require DepthSpec ObserveFacts ObserveSet.
Local Notation alone := DepthSpec.alone.
Local Open Scope nat_scope.

Inductive mpack_of `{Countable K} {V CK U HS : Type} (F : fam K HS V CK U) (L : layout K V CK) (zero : V) (fuel : nat) (api : mapapi K V CK U)
    (dig : N -> K -> nat -> N) (ok : list (mop K V U * mres V) -> mop K V U -> Prop) : Prop :=
  MPackOf (FS FM : fam K HS V CK U) (Q : N -> Prop)
    (sop : K -> V -> insop V CK U) (mdop : K -> (ptr -> bool -> M V CK U unit) -> insop V CK U)
    (vs : V -> V) (WS WM : N -> K -> K -> nat -> Prop)
    (HF : fam_ok F L) (HL : laws F L) (Hcell : ly_cell L = true)
    (Hdig : ∀ s k d, nib F s k d = dig s k d)
    (HFS : alike F L FS) (HFM : alike F L FM)
    (HWS : goodway L dig FS WS) (HWM : goodway L dig FM WM)
    (Hvs : ∀ s k ck d, WS s k ck d -> ∀ v, vs v = v)
    (Hsop : ∀ k v, io_found (sop k v) = (λ iv, store_val (lk_ptr iv) v) /\
       io_new (sop k v) = cellnew L v k /\ io_split (sop k v) = cellnew L (vs v) k)
    (Hmop : ∀ k f,
       io_found (mdop k f) = (λ iv, match lk_ptr iv with Nil => panic | At p => f (At p) true end) /\
       io_new (mdop k f) = modnew L zero k f /\ io_split (mdop k f) = modnew L zero k f)
    (Hearly : ∀ k f, io_early (mdop k f) = true)
    (HSet : ∀ (oh : option loc) k v, ma_Set api oh k v = insert FS (sop k v) fuel oh k)
    (HMod : ∀ (oh : option loc) k f, ma_Mod api oh k f = insert FM (mdop k f) fuel oh k)
    (HDel : ∀ (oh : option loc) k, ma_Del api oh k = delete F fuel oh k)
    (HGet : ∀ (oh : option loc) k, ma_Get api oh k = get F fuel zero oh k)
    (HVal : ∀ (oh : option loc) k, ma_Val api oh k = val F fuel zero oh k)
    (HPtr : ∀ (oh : option loc) k, ma_Ptr api oh k = ptr_of F fuel oh k)
    (HAll : ∀ (oh : option loc) f, ma_All api oh f = all_map F fuel oh f)
    (Hok : ∀ tr op, ok tr op -> mallowed (ly_ok L) Q tr op /\ ins_guard dig WS WM tr op).

Inductive spack_of `{Countable K} {CK U HS : Type} (F : fam K HS unit CK U) (L : layout K unit CK) (fuel : nat) (api : setapi K unit CK U)
    (dig : N -> K -> nat -> N) (ok : list (sop K U * sres) -> sop K U -> Prop) : Prop :=
  SPackOf (FA : fam K HS unit CK U) (Q : N -> Prop)
    (aop : K -> insop unit CK U) (W : N -> K -> K -> nat -> Prop) (dfull : bool)
    (HF : fam_ok F L) (HL : laws F L)
    (Hdig : ∀ s k d, nib F s k d = dig s k d)
    (HFA : alike F L FA) (HW : goodway L dig FA W)
    (Haop : ∀ k, io_found (aop k) = (λ _, ret tt) /\ io_new (aop k) = setcell L tt k /\ io_split (aop k) = setcell L tt k)
    (HAdd : ∀ (oh : option loc) k, sa_Add api oh k = insert FA (aop k) fuel oh k)
    (HDel : dfull = true -> ∀ (oh : option loc) k, sa_Del api oh k = delete F fuel oh k)
    (HHas : ∀ (oh : option loc) k, sa_Has api oh k = has F fuel oh k)
    (HAll : ∀ (oh : option loc) f, sa_All api oh f = all_set F fuel oh f)
    (Hok : ∀ tr op, ok tr op -> sallowed (ly_ok L) Q tr op /\ RefineSet.guarded dig W dfull tr op).

Section pack.
Context {V U : Type} (zero : V).
Lemma map_packs `{HK : Countable K} {CK} (api : nat -> mapapi K V CK U) dig ok : map_types zero api dig ok ->
  ∃ HS (F : fam K HS V CK U) L,
    (∀ n (oh : option loc) k, ma_Get (api n) oh k = get F n zero oh k /\ ma_Val (api n) oh k = val F n zero oh k /\
       ma_Ptr (api n) oh k = ptr_of F n oh k) /\
    (∀ n, mpack_of F L zero n (api n) dig ok).
Proof.
  destruct 1 as [sum64 P Q|sum64 P Q|sum64 P Q Hi|K E C sum64 keq KeyBytes P Q He|K E C Equal Hash P Q He].
  - pose proof (kv_alike (U:=U) sum64 (λ k, k) V _ P (beq_eq P)) as HA.
    exists mhash, (string_fam sum64), (kv_layout P). split; [done|]. intros fuel.
    eapply (MPackOf _ _ _ _ _ _ _ (string_fam sum64) (string_fam sum64) Q (set_op (string_fam sum64)) (mod_op (string_fam sum64) zero) (λ v, v) any_way any_way); try done.
    + apply kv_fam_ok.
    + apply (kv_laws (U:=U) sum64 (λ k, k) V _ P (beq_eq P)).
    + apply kv_dig.
    + apply kv_goodway.
    + apply kv_goodway.
  - pose proof (kv_alike (U:=U) sum64 (λ k, k) V _ P (beq_eq P)) as HA.
    exists mhash, (bytes_fam sum64), (kv_layout P). split; [done|]. intros fuel.
    eapply (MPackOf _ _ _ _ _ _ _ (bytes_fam sum64) (bytes_fam sum64) Q (λ k v, with_check (set_op (bytes_fam sum64) k v)) (λ k f, with_check (mod_op (bytes_fam sum64) zero k f)) (λ v, v) any_way any_way); try done.
    + apply kv_fam_ok.
    + apply (kv_laws (U:=U) sum64 (λ k, k) V _ P (beq_eq P)).
    + apply kv_dig.
    + apply kv_goodway.
    + apply kv_goodway.
  - assert (HL : laws (int_fam (V:=V) (U:=U) sum64) (int_layout P)).
    { constructor. intros k k' _ _. simpl. rewrite bool_decide_eq_true. naive_solver. }
    assert (HW : goodway (int_layout (V:=V) P) (int_digit sum64) (int_fam (U:=U) sum64) (int_way sum64)).
    { apply (stream_goodway sum64 intbytes); try done. intros s k ck p d [Hw|Hw]; [left|by right]. simpl. by apply small_hi. }
    exists mhash, (int_fam sum64), (int_layout P). split; [done|]. intros fuel.
    eapply (MPackOf _ _ _ _ _ _ _ (int_fam sum64) (int_fam sum64) Q (set_op (int_fam sum64)) (mod_op (int_fam sum64) zero) (λ v, v) (int_way sum64) (int_way sum64)); try done.
    + apply int_fam_ok.
    + intros. by apply stream_nib.
    + split_and!; [apply int_fam_ok|done|done].
    + split_and!; [apply int_fam_ok|done|done].
    + intros tr op [Ho Hg]. split; [|done]. eapply allowed_impl; [|exact Ho]. intros k Hk. split; auto.
  - pose proof (kv_alike (U:=U) sum64 KeyBytes V _ P (keq_eq _ _ He)) as HA.
    exists mhash, (arr_fam sum64 keq KeyBytes), (kv_layout P). split; [done|]. intros fuel.
    eapply (MPackOf _ _ _ _ _ _ _ (arr_fam sum64 keq KeyBytes) (arr_fam sum64 keq KeyBytes) Q (λ k v, with_split (set_op (arr_fam sum64 keq KeyBytes) k v) (f_new (arr_fam sum64 keq KeyBytes) zero k))
      (mod_op (arr_fam sum64 keq KeyBytes) zero) (λ _, zero) no_way any_way); try done.
    + apply kv_fam_ok.
    + apply (kv_laws (U:=U) sum64 KeyBytes V _ P (keq_eq _ _ He)).
    + apply kv_dig.
    + apply kv_goodway.
  - exists unit, (gen_fam Equal Hash), (kv_layout P). split; [done|]. intros fuel.
    eapply (MPackOf _ _ _ _ _ _ _ (gen_fam Equal Hash) (gen_mod_fam Equal Hash) Q (set_op (gen_fam Equal Hash)) (mod_op (gen_fam Equal Hash) zero) (λ v, v) (set_way Hash) (mod_way Hash)); try done.
    + apply kv_fam_ok.
    + apply gen_nib.
    + by apply gen_alike.
    + by apply gen_mod_alike.
    + apply (gen_goodway Equal).
    + apply (gen_mod_goodway Equal).
Qed.

Lemma set_packs `{HK : Countable K} {CK} (api : nat -> setapi K unit CK U) dig ok : set_types api dig ok ->
  ∃ HS (F : fam K HS unit CK U) L,
    (∀ n (oh : option loc) k, sa_Has (api n) oh k = has F n oh k) /\
    (∀ n, spack_of F L n (api n) dig ok).
Proof.
  destruct 1 as [sum64 P Q|sum64 P Q|sum64 P Q Hi|K E C sum64 keq KeyBytes P Q He|K E C Equal Hash P Q He].
  - pose proof (kv_alike (U:=U) sum64 (λ k, k) unit _ P (beq_eq P)) as HA.
    exists mhash, (string_fam sum64), (kv_layout P). split; [done|]. intros fuel.
    eapply (SPackOf _ _ _ _ _ _ (string_fam sum64) Q (add_op (string_fam sum64) tt) any_way true); try done.
    + apply kv_fam_ok.
    + apply (kv_laws (U:=U) sum64 (λ k, k) unit _ P (beq_eq P)).
    + apply kv_dig.
    + apply kv_goodway.
    + intros tr op [Ho Hg]. split; [exact Ho|]. destruct op; simpl in *; auto.
  - pose proof (kv_alike (U:=U) sum64 (λ k, k) unit _ P (beq_eq P)) as HA.
    exists mhash, (bytes_fam sum64), (kv_layout P). split; [done|]. intros fuel.
    eapply (SPackOf _ _ _ _ _ _ (bytes_fam sum64) Q (add_op (bytes_fam sum64) tt) any_way false); try done.
    + apply kv_fam_ok.
    + apply (kv_laws (U:=U) sum64 (λ k, k) unit _ P (beq_eq P)).
    + apply kv_dig.
    + apply kv_goodway.
    + intros tr op [Ho [Hg Hn]]. split; [exact Ho|]. destruct op; simpl in *; auto; done.
  - assert (HL : laws (intset_fam (V:=unit) (U:=U) sum64) (intset_layout P)).
    { constructor. intros k k' _ _. simpl. rewrite bool_decide_eq_true. naive_solver. }
    exists mhash, (intset_fam sum64), (intset_layout P). split; [done|]. intros fuel.
    eapply (SPackOf _ _ _ _ _ _ (intset_fam sum64) Q (add_op (intset_fam sum64) tt) (int_way sum64) true); try done.
    + apply intset_fam_ok.
    + intros. by apply stream_nib.
    + split_and!; [apply intset_fam_ok|done|done].
    + apply (stream_goodway sum64 intbytes); try done. intros s k ck p d [Hw|Hw]; [left|by right]. simpl. by apply small_hi.
    + intros tr op [Ho Hg]. split; [|destruct op; simpl in *; auto]. eapply sallowed_impl; [|exact Ho]. intros k Hk. split; auto.
  - pose proof (kv_alike (U:=U) sum64 KeyBytes unit _ P (keq_eq _ _ He)) as HA.
    exists mhash, (arr_fam sum64 keq KeyBytes), (kv_layout P). split; [done|]. intros fuel.
    eapply (SPackOf _ _ _ _ _ _ (arr_fam sum64 keq KeyBytes) Q (add_op (arr_fam sum64 keq KeyBytes) tt) any_way true); try done.
    + apply kv_fam_ok.
    + apply (kv_laws (U:=U) sum64 KeyBytes unit _ P (keq_eq _ _ He)).
    + apply kv_dig.
    + apply kv_goodway.
    + intros tr op [Ho Hg]. split; [exact Ho|]. destruct op; simpl in *; auto.
  - exists unit, (gen_fam Equal Hash), (kv_layout P). split; [done|]. intros fuel.
    eapply (SPackOf _ _ _ _ _ _ (gen_fam Equal Hash) Q (add_op (gen_fam Equal Hash) tt) (set_way Hash) true); try done.
    + apply kv_fam_ok.
    + apply gen_nib.
    + by apply gen_alike.
    + apply (gen_goodway Equal).
    + intros tr op [Ho Hg]. split; [exact Ho|]. destruct op; simpl in *; auto.
Qed.
End pack.

(** ** Lookups with a bound *)
Section cost.
Context {V U : Type} (zero : V) (fuel : nat) (u0 : U) (Hfuel : 256 <= fuel).

Lemma map_cost `{Countable K} {CK} (api : nat -> mapapi K V CK U) dig ok tr w s h n k : map_types zero api dig ok ->
  mrun (api fuel) ok u0 tr w -> (MNew s, RHandle h) ∈ tr -> 0 < n ->
  ∀ op, op = MGet h k \/ op = MVal h k \/ op = MPtr h k ->
  (alone dig s (elements (stored tr h)) n k -> mcall (api n) op w = mcall (api fuel) op w) /\
  (¬ alone dig s (elements (stored tr h)) n k -> mcall (api n) op w = Hang) /\
  (240 < n -> alone dig s (elements (stored tr h)) n k).
Proof.
  intros Ht Hr Hin Hn op Hop. destruct (map_packs zero api dig ok Ht) as (HS & F & L & Hops & Hp).
  destruct (Hp fuel) as [].
  destruct (Refine.run_rel F L Q HF HL Hcell zero fuel Hfuel dig Hdig FS FM sop mdop vs WS WM HFS HFM HWS HWM Hvs Hsop Hmop
    (api fuel) HSet HMod HDel HGet HVal HPtr HAll ok u0 Hok tr w Hr) as (σ & Hsp & HR).
  pose proof (mspec_live dig zero u0 tr σ Hsp _ _ Hin) as Hlive.
  destruct (Refine.Rel_handle F L Q w σ h HR Hlive) as (G & s' & T & HI & HGh & HQ & HG & Hm & Hmh & Hv & Hu).
  destruct (ObserveFacts.mspec_new _ _ _ _ _ Hsp _ _ Hin) as [m2 Hm2]. rewrite Hmh in Hm2. injection Hm2 as -> _.
  assert (Hperm : map fst (leaves T) ≡ₚ elements (stored tr h)).
  { rewrite (stored_keys dig zero u0 tr σ h s _ Hsp Hmh).
    rewrite (Refine.dict_list F L Hcell _ _ _ _ HG). by rewrite (Refine.ent_keys F L Hcell _ _ _ _ HG). }
  assert (Ha : alone dig s (elements (stored tr h)) n k <-> alone dig s (map fst (leaves T)) n k).
  { unfold alone. split; intros Ha k1 k2; specialize (Ha k1 k2); [rewrite Hperm|rewrite Hperm in Ha]; exact Ha. }
  rewrite Ha. destruct (get_levels F L s dig Hdig zero w h T k fuel n HG Hfuel Hn) as [H1 H2].
  destruct (Hops n (Some h) k) as (En1 & En2 & En3). destruct (Hops fuel (Some h) k) as (Ef1 & Ef2 & Ef3).
  split_and!; [intros Hx|intros Hx|intros Hx; exact (alone_max F L s dig Hdig w h T k n HG Hx)];
    [destruct (H1 Hx) as (E1 & E2 & E3 & _)|destruct (H2 Hx) as (E1 & E2 & E3 & _)];
    destruct Hop as [->|[->| ->]]; cbn [mcall]; unfold bind; rewrite ?En1, ?En2, ?En3, ?Ef1, ?Ef2, ?Ef3, ?E1, ?E2, ?E3; done.
Qed.

Lemma set_cost `{Countable K} {CK} (api : nat -> setapi K unit CK U) dig ok tr w s h n k : set_types api dig ok ->
  srun (api fuel) ok u0 tr w -> (SNew s, THandle h) ∈ tr -> 0 < n ->
  (alone dig s (elements (sstored tr h)) n k -> scall (api n) (SHas h k) w = scall (api fuel) (SHas h k) w) /\
  (¬ alone dig s (elements (sstored tr h)) n k -> scall (api n) (SHas h k) w = Hang) /\
  (240 < n -> alone dig s (elements (sstored tr h)) n k).
Proof.
  intros Ht Hr Hin Hn. destruct (set_packs api dig ok Ht) as (HS & F & L & Hops & Hp).
  destruct (Hp fuel) as [].
  destruct (RefineSet.run_rel F L Q HF HL fuel Hfuel dig Hdig FA aop W dfull tt HFA HW Haop (api fuel) HAdd HDel HHas HAll ok u0 Hok tr w Hr)
    as (σ & Hsp & G & HI & Hm & Hu).
  destruct (ObserveSet.sspec_new _ _ _ _ Hsp _ _ Hin) as [X Hx].
  destruct (sspec_stored dig u0 tr σ Hsp h s X Hx) as [HX Hin'].
  rewrite Hm, lookup_fmap in Hx. destruct (G !! h) as [[s1 T]|] eqn:E; [|done]. simpl in Hx. injection Hx as -> Hkeys.
  destruct (in_good _ _ _ _ _ _ HI _ _ _ E) as [HQ HG].
  assert (Hperm : map fst (leaves T) ≡ₚ elements (sstored tr h)).
  { rewrite <- HX, <- Hkeys. symmetry. exact (RefineSet.keys_list F L _ _ _ _ HG). }
  assert (Ha : alone dig s (elements (sstored tr h)) n k <-> alone dig s (map fst (leaves T)) n k).
  { unfold alone. split; intros Ha k1 k2; specialize (Ha k1 k2); [rewrite Hperm|rewrite Hperm in Ha]; exact Ha. }
  rewrite Ha. destruct (get_levels F L s dig Hdig tt w h T k fuel n HG Hfuel Hn) as [H1 H2].
  split_and!; [intros Hx|intros Hx|intros Hx; exact (alone_max F L s dig Hdig w h T k n HG Hx)];
    [destruct (H1 Hx) as (_ & _ & _ & E4)|destruct (H2 Hx) as (_ & _ & _ & E4)];
    cbn [scall]; unfold bind; rewrite !Hops, ?E4; done.
Qed.
End cost.
