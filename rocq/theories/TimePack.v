(** Every map and set type meets the hypotheses of TimeCore.v: Pack.v with the same types
    as programs of memory accesses. *)
From Coq Require Import Sorted SpecFloat.
From stdpp Require Import base numbers list gmap.
From Verif Require Prog PAmt PFam ProgSim.
From Verif Require Import GoInt Mem Hash Amt Families BitsFacts Steps Tree Rep Paths Descend Insert Split Delete Remove Core Scan Order Heap Spec SpecFacts HashFacts Client Types Refine RefineSet Instances PClient ConcClient TimeSpec Time TimeTypes.
From Verif Require Import Pack.
Local Open Scope nat_scope.

Definition cheap {V CK U} (pop : PAmt.insop V CK U) : Prop :=
  (∀ iv, atmost 4 (PAmt.io_found pop iv)) /\ atmost 4 (PAmt.io_new pop) /\ atmost 4 (PAmt.io_split pop).
Definition cheap_fam {K HS V CK U} (PF : PAmt.fam K HS V CK U) (F : fam K HS V CK U) : Prop :=
  ProgSim.famsim PF F /\ ∀ iv, atmost 1 (PAmt.f_key PF iv).

Inductive mparts {K HS V CK U : Type} (zero : V) (fuel : nat) (papi : pmapapi K V CK U) (F FS FM : fam K HS V CK U) : Prop :=
  MParts (PF PFS PFM : PAmt.fam K HS V CK U) (psop : K -> V -> PAmt.insop V CK U)
    (pmdop : K -> (ptr -> bool -> Prog.prog V CK U unit) -> PAmt.insop V CK U)
    (HPF : cheap_fam PF F) (HPFS : cheap_fam PFS FS) (HPFM : cheap_fam PFM FM)
    (Hpsop : ∀ k v, cheap (psop k v)) (Hpmdop : ∀ k f, (∀ p b, atmost 3 (f p b)) -> cheap (pmdop k f))
    (HPSet : ∀ (oh : option loc) k v, pm_Set papi oh k v = PAmt.insert PFS (psop k v) fuel oh k)
    (HPMod : ∀ (oh : option loc) k f, pm_Mod papi oh k f = PAmt.insert PFM (pmdop k f) fuel oh k)
    (HPDel : ∀ (oh : option loc) k, pm_Del papi oh k = PAmt.delete_gen PF negb fuel oh k)
    (HPGet : ∀ (oh : option loc) k, pm_Get papi oh k = PAmt.get PF fuel zero oh k)
    (HPVal : ∀ (oh : option loc) k, pm_Val papi oh k = PAmt.val PF fuel zero oh k)
    (HPPtr : ∀ (oh : option loc) k, pm_Ptr papi oh k = PAmt.ptr_of PF fuel oh k)
    (HPAll : ∀ (oh : option loc) f, pm_All papi oh f = PAmt.all_map PF fuel oh f).
Inductive sparts {K HS CK U : Type} (fuel : nat) (papi : psetapi K unit CK U) (F FA : fam K HS unit CK U) : Prop :=
  SParts (PF PFA : PAmt.fam K HS unit CK U) (paop : K -> PAmt.insop unit CK U) (miss : bool -> bool)
    (HPF : cheap_fam PF F) (HPFA : cheap_fam PFA FA) (Hpaop : ∀ k, cheap (paop k))
    (HPAdd : ∀ (oh : option loc) k, ps_Add papi oh k = PAmt.insert PFA (paop k) fuel oh k)
    (HPDel : ∀ (oh : option loc) k, ps_Del papi oh k = PAmt.delete_gen PF miss fuel oh k)
    (HPHas : ∀ (oh : option loc) k, ps_Has papi oh k = PAmt.has PF fuel oh k)
    (HPAll : ∀ (oh : option loc) f, ps_All papi oh f = PAmt.all_set PF fuel oh f).

Inductive tmpack `{Countable K} {V CK U : Type} (zero : V) (fuel : nat) (papi : pmapapi K V CK U) (api : mapapi K V CK U)
    (dig : N -> K -> nat -> N) (ok : list (mop K V U * mres V) -> mop K V U -> Prop) : Prop :=
  TMPack (HS : Type) (F FS FM : fam K HS V CK U) (L : layout K V CK) (Q : N -> Prop)
    (sop : K -> V -> insop V CK U) (mdop : K -> (ptr -> bool -> M V CK U unit) -> insop V CK U)
    (vs : V -> V) (WS WM : N -> K -> K -> nat -> Prop)
    (HF : fam_ok F L) (HL : laws F L) (Hcell : ly_cell L = true)
    (Hdig : ∀ s k d, nib F s k d = dig s k d)
    (HFS : alike F L FS) (HFM : alike F L FM)
    (HWS : goodway L dig FS WS) (HWM : goodway L dig FM WM)
    (Hvs : ∀ s k ck d, WS s k ck d -> ∀ v, vs v = v)
    (Hsop : ∀ k v, io_found (sop k v) = (λ iv, store_val (lk_ptr iv) v) /\
       io_new (sop k v) = cellnew L v k /\ io_split (sop k v) = cellnew L (vs v) k)
    (Hmop : ∀ k f,
       io_found (mdop k f) = (λ iv, match lk_ptr iv with Nil => panic | At p => f (At p) true end) /\
       io_new (mdop k f) = modnew L zero k f /\ io_split (mdop k f) = modnew L zero k f)
    (Hearly : ∀ k f, io_early (mdop k f) = true)
    (HSet : ∀ (oh : option loc) k v, ma_Set api oh k v = insert FS (sop k v) fuel oh k)
    (HMod : ∀ (oh : option loc) k f, ma_Mod api oh k f = insert FM (mdop k f) fuel oh k)
    (HDel : ∀ (oh : option loc) k, ma_Del api oh k = delete F fuel oh k)
    (HGet : ∀ (oh : option loc) k, ma_Get api oh k = get F fuel zero oh k)
    (HVal : ∀ (oh : option loc) k, ma_Val api oh k = val F fuel zero oh k)
    (HPtr : ∀ (oh : option loc) k, ma_Ptr api oh k = ptr_of F fuel oh k)
    (HAll : ∀ (oh : option loc) f, ma_All api oh f = all_map F fuel oh f)
    (Hok : ∀ tr op, ok tr op -> mallowed (ly_ok L) Q tr op /\ ins_guard dig WS WM tr op)
    (Hzero : ∀ w, f_key F zero_link w = Panic w \/ ∃ ck, f_key F zero_link w = Ret ck w)
    (HP : mparts zero fuel papi F FS FM).

Inductive tspack `{Countable K} {CK U : Type} (fuel : nat) (papi : psetapi K unit CK U) (api : setapi K unit CK U)
    (dig : N -> K -> nat -> N) (ok : list (sop K U * sres) -> sop K U -> Prop) : Prop :=
  TSPack (HS : Type) (F FA : fam K HS unit CK U) (L : layout K unit CK) (Q : N -> Prop)
    (aop : K -> insop unit CK U) (W : N -> K -> K -> nat -> Prop) (dfull : bool)
    (HF : fam_ok F L) (HL : laws F L)
    (Hdig : ∀ s k d, nib F s k d = dig s k d)
    (HFA : alike F L FA) (HW : goodway L dig FA W)
    (Haop : ∀ k, io_found (aop k) = (λ _, ret tt) /\ io_new (aop k) = setcell L tt k /\ io_split (aop k) = setcell L tt k)
    (HAdd : ∀ (oh : option loc) k, sa_Add api oh k = insert FA (aop k) fuel oh k)
    (HDel : dfull = true -> ∀ (oh : option loc) k, sa_Del api oh k = delete F fuel oh k)
    (HHas : ∀ (oh : option loc) k, sa_Has api oh k = has F fuel oh k)
    (HAll : ∀ (oh : option loc) f, sa_All api oh f = all_set F fuel oh f)
    (Hok : ∀ tr op, ok tr op -> sallowed (ly_ok L) Q tr op /\ RefineSet.guarded dig W dfull tr op)
    (HP : sparts fuel papi F FA).

Ltac pay := repeat first [done | apply atmost_load_kv | apply atmost_store_val
  | (eapply atmost_spend; [first [apply atmost_load_kv|apply atmost_store_val]|lia|intros]; cbn)].

Section packs.
Context {V U : Type} (zero : V) (fuel : nat).
Lemma kv_key_cheap {K} (iv : link) : atmost (V:=V) (CK:=K) (U:=U) 1 (PFam.kv_key iv).
Proof. unfold PFam.kv_key. destruct (lk_ptr iv); pay. Qed.
Lemma kv_new_cheap {K} v (k : K) : atmost (V:=V) (CK:=K) (U:=U) 1 (PFam.kv_new v k).
Proof. unfold PFam.kv_new. pay. Qed.
Lemma int_new_cheap v k : atmost (V:=V) (CK:=unit) (U:=U) 1 (PFam.int_new v k).
Proof. unfold PFam.int_new. pay. Qed.

Lemma cheap_mod {K HS CK} (PF : PAmt.fam K HS V CK U) k f : (∀ v k, atmost 1 (PAmt.f_new PF v k)) -> (∀ p b, atmost 3 (f p b)) ->
  cheap (PAmt.mod_op PF zero k f).
Proof.
  intros Hn Hf. assert (Hm : atmost 4 (PAmt.mod_new PF zero k f)).
  { unfold PAmt.mod_new. eapply atmost_spend; [apply Hn|lia|]. intros p n' Hn'.
    eapply (atmost_bind _ 3 0); [lia|apply Hf|]. done. }
  split_and!; [|exact Hm|exact Hm]. intros iv. cbn. destruct (lk_ptr iv); [done|]. eapply atmost_mono; [|apply Hf]. lia.
Qed.
Lemma cheap_set {K HS CK} (PF : PAmt.fam K HS V CK U) k v : (∀ v k, atmost 1 (PAmt.f_new PF v k)) ->
  cheap (PAmt.set_op PF k v).
Proof.
  intros Hn. split_and!; cbn; [|eapply atmost_mono; [|apply Hn]; lia..].
  intros iv. eapply atmost_mono; [|apply atmost_store_val]. lia.
Qed.
Lemma cheap_add {K HS CK} (PF : PAmt.fam K HS V CK U) k v : (∀ v k, atmost 1 (PAmt.f_new PF v k)) ->
  cheap (PAmt.add_op PF v k).
Proof. intros Hn. split_and!; cbn; [done|eapply atmost_mono; [|apply Hn]; lia..]. Qed.

Lemma string_cheap sum64 : cheap_fam (PFam.string_fam (V:=V) (U:=U) sum64) (string_fam sum64).
Proof. split; [apply string_sim|apply kv_key_cheap]. Qed.
Lemma bytes_cheap sum64 : cheap_fam (PFam.bytes_fam (V:=V) (U:=U) sum64) (bytes_fam sum64).
Proof. split; [apply bytes_sim|apply kv_key_cheap]. Qed.
Lemma arr_cheap {K} sum64 keq KB : cheap_fam (PFam.arr_fam (K:=K) (V:=V) (U:=U) sum64 keq KB) (arr_fam sum64 keq KB).
Proof. split; [apply arr_sim|apply kv_key_cheap]. Qed.
Lemma int_cheap sum64 : cheap_fam (PFam.int_fam (V:=V) (U:=U) sum64) (int_fam sum64).
Proof. split; [apply int_sim|done]. Qed.
Lemma intset_cheap sum64 : cheap_fam (PFam.intset_fam (V:=V) (U:=U) sum64) (intset_fam sum64).
Proof. split; [apply intset_sim|done]. Qed.
Lemma gen_cheap {K} eq H : cheap_fam (PFam.gen_fam (K:=K) (V:=V) (U:=U) eq H) (gen_fam eq H).
Proof. split; [apply gen_sim|apply kv_key_cheap]. Qed.
Lemma gen_mod_cheap {K} eq H : cheap_fam (PFam.gen_mod_fam (K:=K) (V:=V) (U:=U) eq H) (gen_mod_fam eq H).
Proof. split; [apply gen_mod_sim|apply kv_key_cheap]. Qed.
End packs.

Ltac cheaply := intros; first [ apply kv_new_cheap | apply int_new_cheap | done ].
Ltac famly := first [apply string_cheap|apply bytes_cheap|apply arr_cheap|apply int_cheap|apply intset_cheap|apply gen_cheap|apply gen_mod_cheap].

Section types.
Context {V U : Type} (zero : V) (fuel : nat).
Lemma map_tpack `{HK : Countable K} {CK} (papi : pmapapi K V CK U) (api : mapapi K V CK U) dig ok : map_both zero fuel papi api dig ok ->
  tmpack zero fuel papi api dig ok.
Proof.
  destruct 1 as [sum64 P Q|sum64 P Q|sum64 P Q Hi|K E C sum64 keq KeyBytes P Q He|K E C Equal Hash P Q He].
  - pose proof (kv_alike (U:=U) sum64 (λ k, k) V _ P (beq_eq P)) as HA.
    eapply (TMPack _ _ _ _ _ _ mhash (string_fam sum64) (string_fam sum64) (string_fam sum64)
      (kv_layout P) Q (set_op (string_fam sum64)) (mod_op (string_fam sum64) zero) (λ v, v) any_way any_way); try done.
    + apply kv_fam_ok.
    + apply (kv_laws sum64 (λ k, k) V _ P (beq_eq P)).
    + apply kv_dig.
    + apply kv_goodway.
    + apply kv_goodway.
    + by left.
    + apply (MParts _ _ _ _ _ _ (PFam.string_fam sum64) (PFam.string_fam sum64) (PFam.string_fam sum64)
        (PAmt.set_op (PFam.string_fam sum64))
        (PAmt.mod_op (PFam.string_fam sum64) zero)); [famly|famly|famly| | |done..].
      * intros k v. by apply cheap_set; cheaply.
      * intros k f Hf. by apply cheap_mod; [cheaply|].
  - pose proof (kv_alike (U:=U) sum64 (λ k, k) V _ P (beq_eq P)) as HA.
    eapply (TMPack _ _ _ _ _ _ mhash (bytes_fam sum64) (bytes_fam sum64) (bytes_fam sum64)
      (kv_layout P) Q (λ k v, with_check (set_op (bytes_fam sum64) k v)) (λ k f, with_check (mod_op (bytes_fam sum64) zero k f)) (λ v, v) any_way any_way); try done.
    + apply kv_fam_ok.
    + apply (kv_laws sum64 (λ k, k) V _ P (beq_eq P)).
    + apply kv_dig.
    + apply kv_goodway.
    + apply kv_goodway.
    + by left.
    + apply (MParts _ _ _ _ _ _ (PFam.bytes_fam sum64) (PFam.bytes_fam sum64) (PFam.bytes_fam sum64)
        (λ k v, PAmt.with_check (PAmt.set_op (PFam.bytes_fam sum64) k v))
        (λ k f, PAmt.with_check (PAmt.mod_op (PFam.bytes_fam sum64) zero k f))); [famly|famly|famly| | |done..].
      * intros k v. by apply cheap_set; cheaply.
      * intros k f Hf. by apply cheap_mod; [cheaply|].
  - assert (HL : laws (int_fam (V:=V) (U:=U) sum64) (int_layout P)).
    { constructor. intros k k' _ _. simpl. rewrite bool_decide_eq_true. naive_solver. }
    assert (HW : goodway (int_layout (V:=V) P) (int_digit sum64) (int_fam (U:=U) sum64) (int_way sum64)).
    { apply (stream_goodway sum64 intbytes); try done. intros s k ck p d [Hw|Hw]; [left|by right]. simpl. by apply small_hi. }
    eapply (TMPack _ _ _ _ _ _ mhash (int_fam sum64) (int_fam sum64) (int_fam sum64)
      (int_layout P) Q (set_op (int_fam sum64)) (mod_op (int_fam sum64) zero) (λ v, v) (int_way sum64) (int_way sum64)); try done.
    + apply int_fam_ok.
    + intros. by apply stream_nib.
    + split_and!; [apply int_fam_ok|done|done].
    + split_and!; [apply int_fam_ok|done|done].
    + intros tr op [Ho Hg]. split; [|done]. eapply allowed_impl; [|exact Ho]. intros k Hk. split; auto.
    + intros w. right. by eexists.
    + apply (MParts _ _ _ _ _ _ (PFam.int_fam sum64) (PFam.int_fam sum64) (PFam.int_fam sum64)
        (PAmt.set_op (PFam.int_fam sum64))
        (PAmt.mod_op (PFam.int_fam sum64) zero)); [famly|famly|famly| | |done..].
      * intros k v. by apply cheap_set; cheaply.
      * intros k f Hf. by apply cheap_mod; [cheaply|].
  - pose proof (kv_alike (U:=U) sum64 KeyBytes V _ P (keq_eq _ _ He)) as HA.
    eapply (TMPack _ _ _ _ _ _ mhash (arr_fam sum64 keq KeyBytes) (arr_fam sum64 keq KeyBytes) (arr_fam sum64 keq KeyBytes)
      (kv_layout P) Q (λ k v, with_split (set_op (arr_fam sum64 keq KeyBytes) k v) (f_new (arr_fam sum64 keq KeyBytes) zero k))
      (mod_op (arr_fam sum64 keq KeyBytes) zero) (λ _, zero) no_way any_way); try done.
    + apply kv_fam_ok.
    + apply (kv_laws sum64 KeyBytes V _ P (keq_eq _ _ He)).
    + apply kv_dig.
    + apply kv_goodway.
    + by left.
    + apply (MParts _ _ _ _ _ _ (PFam.arr_fam sum64 keq KeyBytes) (PFam.arr_fam sum64 keq KeyBytes) (PFam.arr_fam sum64 keq KeyBytes)
        (λ k v, PAmt.with_split (PAmt.set_op (PFam.arr_fam sum64 keq KeyBytes) k v) (PAmt.f_new (PFam.arr_fam sum64 keq KeyBytes) zero k))
        (PAmt.mod_op (PFam.arr_fam sum64 keq KeyBytes) zero)); [famly|famly|famly| | |done..].
      * intros k v. destruct (cheap_set (PFam.arr_fam (V:=V) (U:=U) sum64 keq KeyBytes) k v) as (H1 & H2 & H3); [cheaply|].
        destruct (cheap_set (PFam.arr_fam (V:=V) (U:=U) sum64 keq KeyBytes) k zero) as (_ & _ & H4); [cheaply|].
        split_and!; [exact H1|exact H2|exact H4].
      * intros k f Hf. by apply cheap_mod; [cheaply|].
  - eapply (TMPack _ _ _ _ _ _ unit (gen_fam Equal Hash) (gen_fam Equal Hash) (gen_mod_fam Equal Hash)
      (kv_layout P) Q (set_op (gen_fam Equal Hash)) (mod_op (gen_fam Equal Hash) zero) (λ v, v) (set_way Hash) (mod_way Hash)); try done.
    + apply kv_fam_ok.
    + apply gen_nib.
    + by apply gen_alike.
    + by apply gen_mod_alike.
    + apply (gen_goodway Equal).
    + apply (gen_mod_goodway Equal).
    + by left.
    + apply (MParts _ _ _ _ _ _ (PFam.gen_fam Equal Hash) (PFam.gen_fam Equal Hash) (PFam.gen_mod_fam Equal Hash)
        (PAmt.set_op (PFam.gen_fam Equal Hash))
        (PAmt.mod_op (PFam.gen_fam Equal Hash) zero)); [famly|famly|famly| | |done..].
      * intros k v. by apply cheap_set; cheaply.
      * intros k f Hf. by apply cheap_mod; [cheaply|].
Qed.


Lemma set_tpack `{HK : Countable K} {CK} (papi : psetapi K unit CK U) (api : setapi K unit CK U) dig ok : set_both fuel papi api dig ok ->
  tspack fuel papi api dig ok.
Proof.
  destruct 1 as [sum64 P Q|sum64 P Q|sum64 P Q Hi|K E C sum64 keq KeyBytes P Q He|K E C Equal Hash P Q He].
  - pose proof (kv_alike (U:=U) sum64 (λ k, k) unit _ P (beq_eq P)) as HA.
    eapply (TSPack _ _ _ _ _ mhash (string_fam sum64) (string_fam sum64)
      (kv_layout P) Q (add_op (string_fam sum64) tt) any_way true); try done.
    + apply kv_fam_ok.
    + apply (kv_laws sum64 (λ k, k) unit _ P (beq_eq P)).
    + apply kv_dig.
    + apply kv_goodway.
    + intros tr op [Ho Hg]. split; [exact Ho|]. destruct op; simpl in *; auto.
    + apply (SParts _ _ _ _ (PFam.string_fam sum64) (PFam.string_fam sum64) (PAmt.add_op (PFam.string_fam sum64) tt) negb); [famly|famly| |done..].
      intros k. apply cheap_add. cheaply.
  - pose proof (kv_alike (U:=U) sum64 (λ k, k) unit _ P (beq_eq P)) as HA.
    eapply (TSPack _ _ _ _ _ mhash (bytes_fam sum64) (bytes_fam sum64)
      (kv_layout P) Q (add_op (bytes_fam sum64) tt) any_way false); try done.
    + apply kv_fam_ok.
    + apply (kv_laws sum64 (λ k, k) unit _ P (beq_eq P)).
    + apply kv_dig.
    + apply kv_goodway.
    + intros tr op [Ho [Hg Hn]]. split; [exact Ho|]. destruct op; simpl in *; auto; done.
    + apply (SParts _ _ _ _ (PFam.bytes_fam sum64) (PFam.bytes_fam sum64) (PAmt.add_op (PFam.bytes_fam sum64) tt) (λ b, b)); [famly|famly| |done..].
      intros k. apply cheap_add. cheaply.
  - assert (HL : laws (intset_fam (V:=unit) (U:=U) sum64) (intset_layout P)).
    { constructor. intros k k' _ _. simpl. rewrite bool_decide_eq_true. naive_solver. }
    eapply (TSPack _ _ _ _ _ mhash (intset_fam sum64) (intset_fam sum64)
      (intset_layout P) Q (add_op (intset_fam sum64) tt) (int_way sum64) true); try done.
    + apply intset_fam_ok.
    + intros. by apply stream_nib.
    + split_and!; [apply intset_fam_ok|done|done].
    + apply (stream_goodway sum64 intbytes); try done. intros s k ck p d [Hw|Hw]; [left|by right]. simpl. by apply small_hi.
    + intros tr op [Ho Hg]. split; [|destruct op; simpl in *; auto]. eapply sallowed_impl; [|exact Ho]. intros k Hk. split; auto.
    + apply (SParts _ _ _ _ (PFam.intset_fam sum64) (PFam.intset_fam sum64) (PAmt.add_op (PFam.intset_fam sum64) tt) negb); [famly|famly| |done..].
      intros k. apply cheap_add. cheaply.
  - pose proof (kv_alike (U:=U) sum64 KeyBytes unit _ P (keq_eq _ _ He)) as HA.
    eapply (TSPack _ _ _ _ _ mhash (arr_fam sum64 keq KeyBytes) (arr_fam sum64 keq KeyBytes)
      (kv_layout P) Q (add_op (arr_fam sum64 keq KeyBytes) tt) any_way true); try done.
    + apply kv_fam_ok.
    + apply (kv_laws sum64 KeyBytes unit _ P (keq_eq _ _ He)).
    + apply kv_dig.
    + apply kv_goodway.
    + intros tr op [Ho Hg]. split; [exact Ho|]. destruct op; simpl in *; auto.
    + apply (SParts _ _ _ _ (PFam.arr_fam sum64 keq KeyBytes) (PFam.arr_fam sum64 keq KeyBytes) (PAmt.add_op (PFam.arr_fam sum64 keq KeyBytes) tt) negb); [famly|famly| |done..].
      intros k. apply cheap_add. cheaply.
  - eapply (TSPack _ _ _ _ _ unit (gen_fam Equal Hash) (gen_fam Equal Hash)
      (kv_layout P) Q (add_op (gen_fam Equal Hash) tt) (set_way Hash) true); try done.
    + apply kv_fam_ok.
    + apply gen_nib.
    + by apply gen_alike.
    + apply (gen_goodway Equal).
    + intros tr op [Ho Hg]. split; [exact Ho|]. destruct op; simpl in *; auto.
    + apply (SParts _ _ _ _ (PFam.gen_fam Equal Hash) (PFam.gen_fam Equal Hash) (PAmt.add_op (PFam.gen_fam Equal Hash) tt) negb); [famly|famly| |done..].
      intros k. apply cheap_add. cheaply.
Qed.

End types.
