(** Every map and set type of WeakTypes.v meets the hypotheses of WeakMap.v and
    WeakSet.v. *)
From stdpp Require Import base numbers list gmap.
From Verif Require Import GoInt Mem Hash Amt Families BitsFacts Steps Tree Rep Paths Descend Insert Split Delete Remove Core Scan Order Heap Spec SpecFacts HashFacts Client Types Refine RefineSet Instances Pack Levels Shape Weak Place WeakHeap Rekey Bag WeakRuns WeakTypes WeakMap WeakSet WeakSim.
Local Open Scope nat_scope.

Inductive wpack {K V U : Type} (zero : V) (fuel : nat) (api : mapapi K V K U)
    (eq : K -> K -> bool) (lost over stable : bool) (clob : K -> K -> Prop) : Prop :=
  WPack (HS : Type) (F FS FM : fam K HS V K U) (L : layout K V K) (PL : N -> tree K -> Prop)
    (sop : K -> V -> insop V K U) (mdop : K -> (ptr -> bool -> M V K U unit) -> insop V K U) (vs : V -> V)
    (Heq : f_eq F = eq) (Hclob : (λ k k', clob (ly_ck L k) (ly_ck L k')) = clob)
    (HF : fam_ok F L) (Hall : ∀ k, ly_ok L k)
    (Hflat : ∀ k p, lk_tmap (ly_leaf L k p) = 0%N)
    (Hrepl : ∀ k p ck cp, lk_with_ptr p (ly_leaf L ck cp) = ly_leaf L k p)
    (Hcell : ly_cell L = true)
    (HPnew : ∀ s a, PL s (Node a [])) (HP : place_ok F PL)
    (HFS : walike F L PL FS) (HFM : walike F L PL FM)
    (HSS : stable = true -> wstable F FS) (HSM : stable = true -> wstable F FM) (Hover : over = true -> stable = true)
    (Hvs : ∀ v, vs v = v \/ lost = true /\ vs v = zero)
    (Hsop : ∀ k v, io_found (sop k v) = (λ iv, store_val (lk_ptr iv) v) /\
      io_new (sop k v) = cellnew L v k /\ io_split (sop k v) = cellnew L (vs v) k /\ (io_check (sop k v) = true -> over = true))
    (Hmop : ∀ k f,
      io_found (mdop k f) = (λ iv, match lk_ptr iv with Nil => panic | At p => f (At p) true end) /\
      io_new (mdop k f) = modnew L zero k f /\ io_split (mdop k f) = modnew L zero k f /\ (io_check (mdop k f) = true -> over = true))
    (HSet : ∀ (oh : option loc) k v, ma_Set api oh k v = insert FS (sop k v) fuel oh k)
    (HMod : ∀ (oh : option loc) k f, ma_Mod api oh k f = insert FM (mdop k f) fuel oh k)
    (HDel : ∀ (oh : option loc) k, ma_Del api oh k = delete F fuel oh k)
    (HGet : ∀ (oh : option loc) k, ma_Get api oh k = get F fuel zero oh k)
    (HVal : ∀ (oh : option loc) k, ma_Val api oh k = val F fuel zero oh k)
    (HPtr : ∀ (oh : option loc) k, ma_Ptr api oh k = ptr_of F fuel oh k)
    (HAll : ∀ (oh : option loc) f, ma_All api oh f = all_map F fuel oh f)
    (Hck : ∀ ck ck', clob ck ck' -> ∃ k, ly_ck L k = ck')
    (Hlink : ∀ ck ck', clob ck ck' -> ∀ k1 k2 q, ly_leaf L k1 q = ly_leaf L k2 q)
    (HPkey : ∀ ck ck', clob ck ck' -> ∀ p k s T, PL s T -> PL s (rekey p k T)).

Inductive wspack {K U : Type} (fuel : nat) (api : setapi K unit K U)
    (eq : K -> K -> bool) (inverted stable : bool) (clob : K -> K -> Prop) : Prop :=
  WSPack (HS : Type) (F : fam K HS unit K U) (L : layout K unit K) (PL : N -> tree K -> Prop) (aop : K -> insop unit K U)
    (Heq : f_eq F = eq) (Hclob : (λ k k', clob (ly_ck L k) (ly_ck L k')) = clob)
    (HF : fam_ok F L) (Hall : ∀ k, ly_ok L k)
    (Hflat : ∀ k p, lk_tmap (ly_leaf L k p) = 0%N)
    (Hrepl : ∀ k p ck cp, lk_with_ptr p (ly_leaf L ck cp) = ly_leaf L k p)
    (Hcell : ly_cell L = true)
    (HPnew : ∀ s a, PL s (Node a [])) (HP : place_ok F PL)
    (HSS : stable = true -> right_conf F /\ ∀ s k k' d, f_eq F k k' = true -> nib F s k d = nib F s k' d)
    (Haop : ∀ k, io_found (aop k) = (λ _, ret tt) /\
      io_new (aop k) = cellnew L tt k /\ io_split (aop k) = cellnew L tt k /\ io_check (aop k) = false)
    (HAdd : ∀ (oh : option loc) k, sa_Add api oh k = insert F (aop k) fuel oh k)
    (HDel : ∀ (oh : option loc) k, sa_Del api oh k = delete_gen F (if inverted then (λ b, b) else negb) fuel oh k)
    (HHas : ∀ (oh : option loc) k, sa_Has api oh k = has F fuel oh k)
    (HAll : ∀ (oh : option loc) f, sa_All api oh f = all_set F fuel oh f)
    (Hck : ∀ ck ck', clob ck ck' -> (∃ k, ly_ck L k = ck) /\ (∃ k, ly_ck L k = ck'))
    (Hinj : ∀ ck ck', clob ck ck' -> ∀ k1 k2, ly_ck L k1 = ly_ck L k2 -> k1 = k2)
    (Hlink : ∀ ck ck', clob ck ck' -> ∀ k1 k2 q, ly_leaf L k1 q = ly_leaf L k2 q)
    (HPkey : ∀ ck ck', clob ck ck' -> ∀ p k s T, PL s T -> PL s (rekey p k T)).

Section pack.
Context {V U : Type} (zero : V) (fuel : nat).
Local Notation anywhere := (λ _ _, True).

Lemma kv_right {K} sum64 (kbytes : K -> bytes) W eq : right_conf (kvF (U:=U) sum64 kbytes W eq).
Proof. by apply (stream_right sum64 kbytes). Qed.
Lemma kv_samedig {K} sum64 (kbytes : K -> bytes) W eq : (∀ k k', eq k k' = true -> kbytes k = kbytes k') ->
  ∀ s k k' d, f_eq (kvF (U:=U) sum64 kbytes W eq) k k' = true -> nib (kvF (U:=U) sum64 kbytes W eq) s k d = nib (kvF (U:=U) sum64 kbytes W eq) s k' d.
Proof. intros He s k k' d Hk. rewrite !kv_dig. f_equal. by apply He. Qed.
Lemma kv_stable {K} sum64 (kbytes : K -> bytes) W eq : (∀ k k', eq k k' = true -> kbytes k = kbytes k') ->
  wstable (kvF (U:=U) sum64 kbytes W eq) (kvF (U:=U) sum64 kbytes W eq).
Proof. intros He. split_and!; [done|apply kv_right|by apply kv_samedig]. Qed.
Lemma kv_walike {K} sum64 (kbytes : K -> bytes) W eq P :
  walike (kvF (U:=U) sum64 kbytes W eq) (kv_layout P) anywhere (kvF (U:=U) sum64 kbytes W eq).
Proof. split_and!; [apply kv_fam_ok|done|done|apply place_ok_true]. Qed.
Lemma same_bytes_eq k k' : same_bytes k k' = true -> k = k'.
Proof. unfold same_bytes. rewrite bool_decide_eq_true. done. Qed.

Local Notation top := (λ _, True).
Lemma weak_pack {K} (api : mapapi K V K U) eq lost over stable clob :
  weak_map zero fuel api eq lost over stable clob -> wpack zero fuel api eq lost over stable clob.
Proof.
  destruct 1 as [sum64|sum64 clob|K sum64 keq KeyBytes stable He|K Equal Hash].
  - pose proof (kv_walike sum64 (λ k, k) V same_bytes top) as HA. pose proof (kv_stable sum64 (λ k, k) V _ same_bytes_eq) as HB.
    eapply (WPack _ _ _ _ _ _ _ _ mhash (string_fam sum64) (string_fam sum64) (string_fam sum64)
      (kv_layout top) anywhere (set_op (string_fam sum64)) (mod_op (string_fam sum64) zero) (λ v, v)); try done.
    + apply kv_fam_ok.
    + by left.
  - pose proof (kv_walike sum64 (λ k, k) V same_bytes top) as HA. pose proof (kv_stable sum64 (λ k, k) V _ same_bytes_eq) as HB.
    eapply (WPack _ _ _ _ _ _ _ _ mhash (bytes_fam sum64) (bytes_fam sum64) (bytes_fam sum64)
      (kv_layout top) anywhere (λ k v, with_check (set_op (bytes_fam sum64) k v)) (λ k f, with_check (mod_op (bytes_fam sum64) zero k f)) (λ v, v)); try done.
    + apply kv_fam_ok.
    + by left.
    + intros ck ck' _. by exists ck'.
  - pose proof (kv_walike sum64 KeyBytes V (swapped keq) top) as HA.
    assert (HB : stable = true -> wstable (kvF (U:=U) sum64 KeyBytes V (swapped keq)) (kvF (U:=U) sum64 KeyBytes V (swapped keq))).
    { intros Hs. apply kv_stable. intros k k' Hk. symmetry. by apply (He Hs). }
    eapply (WPack _ _ _ _ _ _ _ _ mhash (arr_fam sum64 keq KeyBytes) (arr_fam sum64 keq KeyBytes) (arr_fam sum64 keq KeyBytes)
      (kv_layout top) anywhere (λ k v, with_split (set_op (arr_fam sum64 keq KeyBytes) k v) (f_new (arr_fam sum64 keq KeyBytes) zero k))
      (mod_op (arr_fam sum64 keq KeyBytes) zero) (λ _, zero)); try done.
    + apply kv_fam_ok.
    + by right.
  - eapply (WPack _ _ _ _ _ _ _ _ unit (gen_fam Equal Hash) (gen_fam Equal Hash) (gen_mod_fam Equal Hash)
      (kv_layout top) anywhere (set_op (gen_fam Equal Hash)) (mod_op (gen_fam Equal Hash) zero) (λ v, v)); try done.
    + apply kv_fam_ok.
    + split_and!; [apply kv_fam_ok|done|done|apply place_ok_true].
    + split_and!; [apply kv_fam_ok|done|done|apply place_ok_true].
    + by left.
Qed.
Lemma weak_spack {K} (api : setapi K unit K U) eq inverted stable clob :
  weak_set fuel api eq inverted stable clob -> wspack fuel api eq inverted stable clob.
Proof.
  destruct 1 as [sum64|sum64 clob|K sum64 keq KeyBytes stable He|K Equal Hash].
  - eapply (WSPack _ _ _ _ _ _ mhash (string_fam sum64) (kv_layout top) anywhere (add_op (string_fam sum64) tt)); try done.
    + apply kv_fam_ok.
    + intros _. split; [apply (kv_right sum64 (λ k, k))|apply (kv_samedig sum64 (λ k, k) unit same_bytes), same_bytes_eq].
  - eapply (WSPack _ _ _ _ _ _ mhash (bytes_fam sum64) (kv_layout top) anywhere (add_op (bytes_fam sum64) tt)); try done.
    + apply kv_fam_ok.
    + intros _. split; [apply (kv_right sum64 (λ k, k))|apply (kv_samedig sum64 (λ k, k) unit same_bytes), same_bytes_eq].
    + intros ck ck' _. split; eauto.
  - eapply (WSPack _ _ _ _ _ _ mhash (arr_fam sum64 keq KeyBytes) (kv_layout top) anywhere (add_op (arr_fam sum64 keq KeyBytes) tt)); try done.
    + apply kv_fam_ok.
    + intros Hs. split; [apply (kv_right sum64 KeyBytes)|apply (kv_samedig sum64 KeyBytes unit (swapped keq))].
      intros k k' Hk. symmetry. by apply (He Hs).
  - eapply (WSPack _ _ _ _ _ _ unit (gen_fam Equal Hash) (kv_layout top) anywhere (add_op (gen_fam Equal Hash) tt)); try done.
    apply kv_fam_ok.
Qed.
End pack.

(** ** The simulations *)
Section sims.
Context {V U : Type} (zero : V) (fuel : nat).
Hypothesis Hfuel : 256 <= fuel.

Theorem weak_sim {K} (api : mapapi K V K U) eq lost over stable clob :
  weak_map zero fuel api eq lost over stable clob -> ∃ R, wsim api eq zero lost over stable clob R.
Proof.
  intros Ht. destruct (weak_pack _ _ _ _ _ _ _ _ Ht) as [HS F FS FM L PL sop mdop vs Heq Hclob]. subst eq.
  exists (WeakMap.Rel F L PL). constructor.
  - intros u. eapply (WeakMap.Rel_init F L PL); eauto.
  - intros w σ HR. by destruct HR as (_&_&_&_&?).
  - intros w σ h B k Hw HB. by apply (WeakMap.read_rel F L PL HF Hall Hcell zero fuel Hfuel api HGet HVal HPtr).
  - intros w σ op Hw Ho. exact (WeakMap.step_ok F L PL HF Hall Hflat Hrepl Hcell HPnew HP zero fuel Hfuel lost over stable FS FM sop mdop vs HFS HFM HSS HSM Hover Hvs Hsop Hmop api HSet HMod HDel HGet HVal HPtr HAll w σ op Hw Ho).
  - intros w σ p v ck ck' Hc Hw Hp. rewrite <- Hclob. eapply (WeakMap.key_step F L PL); eauto.
  - intros w σ h Hw Hh. eapply (WeakMap.agree_rel F L PL); eauto.
Qed.
End sims.

(** The same for sets. *)
Section ssims.
Context {U : Type} (fuel : nat).
Hypothesis Hfuel : 256 <= fuel.
Context {K : Type} (api : setapi K unit K U) (eq : K -> K -> bool) (inverted stable : bool) (clob : K -> K -> Prop) (u0 : U).
Hypothesis Htype : weak_set fuel api eq inverted stable clob.
Local Notation swrun := (swrun api 254 clob u0).
Local Notation allowed := (sallowed (λ _, True) (λ _, True)).

Theorem weak_set_spec tr w : swrun tr w -> ∃ σ, sbspec eq inverted stable clob u0 tr σ /\ sbs_usr σ = w_usr w /\
  ∀ op, allowed tr op ->
    (scall api op w = Hang /\ sadds σ op) \/
    (∃ res w', scall api op w = Ret res w' /\
       (shallow 254 w' -> ∃ σ', sbstep eq inverted stable σ op res σ' /\ sbs_usr σ' = w_usr w')).
Proof.
  destruct (weak_spack _ _ _ _ _ _ Htype) as [HS F L PL aop Heq Hclob]. subst eq.
  pose proof (WeakSet.weak_spec F L PL HF Hall Hflat Hrepl Hcell HPnew HP tt fuel Hfuel inverted stable HSS aop Haop api HAdd HDel HHas HAll clob u0 Hck Hinj Hlink HPkey tr w) as Hx.
  rewrite Hclob in Hx. exact Hx.
Qed.
Theorem weak_set_readback tr w h k res w' : swrun tr w -> allowed tr (SAdd h k) ->
  scall api (SAdd h k) w = Ret res w' -> shallow 254 w' -> eq k k = true ->
  scall api (SHas h k) w' = Ret (THas true) w'.
Proof.
  destruct (weak_spack _ _ _ _ _ _ Htype) as [HS F L PL aop Heq Hclob]. subst eq.
  exact (WeakSet.weak_readback F L PL HF Hall Hflat Hrepl Hcell HPnew HP tt fuel Hfuel inverted stable HSS aop Haop api HAdd HDel HHas HAll clob u0 Hck Hinj Hlink HPkey tr w h k res w').
Qed.
Theorem weak_set_agree tr w h : swrun tr w -> (∃ s, (SNew s, THandle h) ∈ tr) -> ∃ ks : list K,
  scall api (SLen h) w = Ret (TLen (N.of_nat (length ks) mod 2 ^ 64)) w /\
  (∀ f : U -> K -> U * bool, ∃ w', scall api (SAll h f) w = Ret TUnit w' /\ w_usr w' = seach f ks (w_usr w)) /\
  ∀ k, ∃ b, scall api (SHas h k) w = Ret (THas b) w /\ (b = true -> ∃ k', k' ∈ ks /\ eq k k' = true).
Proof.
  destruct (weak_spack _ _ _ _ _ _ Htype) as [HS F L PL aop Heq Hclob]. subst eq.
  exact (WeakSet.weak_agree F L PL HF Hall Hflat Hrepl Hcell HPnew HP tt fuel Hfuel inverted stable HSS aop Haop api HAdd HDel HHas HAll clob u0 Hck Hinj Hlink HPkey tr w h).
Qed.
End ssims.
