(** Every map and set type of Types.v meets the hypotheses of Refine.v and
    RefineSet.v. *)
From Coq Require Import Sorted SpecFloat.
From stdpp Require Import base numbers list gmap.
From Verif Require Import GoInt Mem Hash Amt Families BitsFacts Steps Tree Rep Paths Descend Insert Split Delete Remove Core Scan Order Heap Spec SpecFacts HashFacts Client Types Refine RefineSet Instances.
Local Open Scope nat_scope.

Inductive mpack `{Countable K} {V CK U : Type} (zero : V) (fuel : nat) (api : mapapi K V CK U)
    (dig : N -> K -> nat -> N) (ok : list (mop K V U * mres V) -> mop K V U -> Prop) : Prop :=
  MPack (HS : Type) (F FS FM : fam K HS V CK U) (L : layout K V CK) (Q : N -> Prop)
    (sop : K -> V -> insop V CK U) (mdop : K -> (ptr -> bool -> M V CK U unit) -> insop V CK U)
    (vs : V -> V) (WS WM : N -> K -> K -> nat -> Prop)
    (HF : fam_ok F L) (HL : laws F L) (Hcell : ly_cell L = true)
    (Hdig : ∀ s k d, nib F s k d = dig s k d)
    (HFS : alike F L FS) (HFM : alike F L FM)
    (HWS : goodway L dig FS WS) (HWM : goodway L dig FM WM)
    (Hvs : ∀ s k ck d, WS s k ck d -> ∀ v, vs v = v)
    (Hsop : ∀ k v, io_found (sop k v) = (λ iv, store_val (lk_ptr iv) v) /\
       io_new (sop k v) = cellnew L v k /\ io_split (sop k v) = cellnew L (vs v) k)
    (Hmop : ∀ k f,
       io_found (mdop k f) = (λ iv, match lk_ptr iv with Nil => panic | At p => f (At p) true end) /\
       io_new (mdop k f) = modnew L zero k f /\ io_split (mdop k f) = modnew L zero k f)
    (Hearly : ∀ k f, io_early (mdop k f) = true)
    (HSet : ∀ (oh : option loc) k v, ma_Set api oh k v = insert FS (sop k v) fuel oh k)
    (HMod : ∀ (oh : option loc) k f, ma_Mod api oh k f = insert FM (mdop k f) fuel oh k)
    (HDel : ∀ (oh : option loc) k, ma_Del api oh k = delete F fuel oh k)
    (HGet : ∀ (oh : option loc) k, ma_Get api oh k = get F fuel zero oh k)
    (HVal : ∀ (oh : option loc) k, ma_Val api oh k = val F fuel zero oh k)
    (HPtr : ∀ (oh : option loc) k, ma_Ptr api oh k = ptr_of F fuel oh k)
    (HAll : ∀ (oh : option loc) f, ma_All api oh f = all_map F fuel oh f)
    (Hok : ∀ tr op, ok tr op -> mallowed (ly_ok L) Q tr op /\ ins_guard dig WS WM tr op)
    (Hzero : ∀ w, f_key F zero_link w = Panic w \/ ∃ ck, f_key F zero_link w = Ret ck w).

Inductive spack `{Countable K} {CK U : Type} (fuel : nat) (api : setapi K unit CK U)
    (dig : N -> K -> nat -> N) (ok : list (sop K U * sres) -> sop K U -> Prop) : Prop :=
  SPack (HS : Type) (F FA : fam K HS unit CK U) (L : layout K unit CK) (Q : N -> Prop)
    (aop : K -> insop unit CK U) (W : N -> K -> K -> nat -> Prop) (dfull : bool)
    (HF : fam_ok F L) (HL : laws F L)
    (Hdig : ∀ s k d, nib F s k d = dig s k d)
    (HFA : alike F L FA) (HW : goodway L dig FA W)
    (Haop : ∀ k, io_found (aop k) = (λ _, ret tt) /\ io_new (aop k) = setcell L tt k /\ io_split (aop k) = setcell L tt k)
    (HAdd : ∀ (oh : option loc) k, sa_Add api oh k = insert FA (aop k) fuel oh k)
    (HDel : dfull = true -> ∀ (oh : option loc) k, sa_Del api oh k = delete F fuel oh k)
    (HHas : ∀ (oh : option loc) k, sa_Has api oh k = has F fuel oh k)
    (HAll : ∀ (oh : option loc) f, sa_All api oh f = all_set F fuel oh f)
    (Hok : ∀ tr op, ok tr op -> sallowed (ly_ok L) Q tr op /\ RefineSet.guarded dig W dfull tr op).

Lemma allowed_impl {K V U} (P P' : K -> Prop) Q (tr : list (mop K V U * mres V)) op : (∀ k, P k -> P' k) ->
  mallowed P Q tr op -> mallowed P' Q tr op.
Proof. intros HP Ha. destruct op; simpl in *; naive_solver. Qed.
Lemma sallowed_impl {K U} (P P' : K -> Prop) Q (tr : list (sop K U * sres)) op : (∀ k, P k -> P' k) ->
  sallowed P Q tr op -> sallowed P' Q tr op.
Proof. intros HP Ha. destruct op; simpl in *; naive_solver. Qed.

Section pack.
Context {V U : Type} (zero : V) (fuel : nat).

(** Types whose structs hold the key and that hash with maphash. *)
Section kv.
Context {K : Type} (sum64 : N -> bytes -> N) (kbytes : K -> bytes) (W : Type) (eq : K -> K -> bool) (P : K -> Prop).
Definition kvF : fam K mhash W K U :=
  Fam (stream_start sum64 kbytes) (stream_next sum64 kbytes) (stream_conf sum64 kbytes) kv_key kv_leaf kv_pair kv_new eq.
Hypothesis Heq : ∀ k k', P k -> P k' -> eq k k' = true <-> k = k'.
Lemma kv_laws : laws kvF (kv_layout P).
Proof. by constructor. Qed.
Lemma kv_alike : alike kvF (kv_layout P) kvF.
Proof. split_and!; [apply kv_fam_ok|done|apply kv_laws]. Qed.
Lemma kv_goodway dig R : goodway (kv_layout P) dig kvF R.
Proof. apply (stream_goodway sum64 kbytes); try done. by left. Qed.
Lemma kv_dig s k d : nib kvF s k d = digit sum64 s (kbytes k) d.
Proof. by apply stream_nib. Qed.
End kv.

Lemma beq_eq (P : bytes -> Prop) (k k' : bytes) : P k -> P k' -> bool_decide (k' = k) = true <-> k = k'.
Proof. intros _ _. rewrite bool_decide_eq_true. naive_solver. Qed.
Lemma keq_eq {K} keq (P : K -> Prop) : decides_eq keq P -> ∀ k k', P k -> P k' -> keq k' k = true <-> k = k'.
Proof. intros He k k' Hk Hk'. rewrite (He k' k Hk' Hk). naive_solver. Qed.

Lemma map_pack `{HK : Countable K} {CK} (api : mapapi K V CK U) dig ok : map_type zero fuel api dig ok ->
  mpack zero fuel api dig ok.
Proof.
  destruct 1 as [sum64 P Q|sum64 P Q|sum64 P Q Hi|K E C sum64 keq KeyBytes P Q He|K E C Equal Hash P Q He].
  - pose proof (kv_alike sum64 (λ k, k) V _ P (beq_eq P)) as HA.
    eapply (MPack _ _ _ _ _ mhash (string_fam sum64) (string_fam sum64) (string_fam sum64)
      (kv_layout P) Q (set_op (string_fam sum64)) (mod_op (string_fam sum64) zero) (λ v, v) any_way any_way); try done.
    + apply kv_fam_ok.
    + apply (kv_laws sum64 (λ k, k) V _ P (beq_eq P)).
    + apply kv_dig.
    + apply kv_goodway.
    + apply kv_goodway.
    + by left.
  - pose proof (kv_alike sum64 (λ k, k) V _ P (beq_eq P)) as HA.
    eapply (MPack _ _ _ _ _ mhash (bytes_fam sum64) (bytes_fam sum64) (bytes_fam sum64)
      (kv_layout P) Q (λ k v, with_check (set_op (bytes_fam sum64) k v)) (λ k f, with_check (mod_op (bytes_fam sum64) zero k f)) (λ v, v) any_way any_way); try done.
    + apply kv_fam_ok.
    + apply (kv_laws sum64 (λ k, k) V _ P (beq_eq P)).
    + apply kv_dig.
    + apply kv_goodway.
    + apply kv_goodway.
    + by left.
  - assert (HL : laws (int_fam (V:=V) (U:=U) sum64) (int_layout P)).
    { constructor. intros k k' _ _. simpl. rewrite bool_decide_eq_true. naive_solver. }
    assert (HW : goodway (int_layout (V:=V) P) (int_digit sum64) (int_fam (U:=U) sum64) (int_way sum64)).
    { apply (stream_goodway sum64 intbytes); try done. intros s k ck p d [Hw|Hw]; [left|by right]. simpl. by apply small_hi. }
    eapply (MPack _ _ _ _ _ mhash (int_fam sum64) (int_fam sum64) (int_fam sum64)
      (int_layout P) Q (set_op (int_fam sum64)) (mod_op (int_fam sum64) zero) (λ v, v) (int_way sum64) (int_way sum64)); try done.
    + apply int_fam_ok.
    + intros. by apply stream_nib.
    + split_and!; [apply int_fam_ok|done|done].
    + split_and!; [apply int_fam_ok|done|done].
    + intros tr op [Ho Hg]. split; [|done]. eapply allowed_impl; [|exact Ho]. intros k Hk. split; auto.
    + intros w. right. by eexists.
  - pose proof (kv_alike sum64 KeyBytes V _ P (keq_eq _ _ He)) as HA.
    eapply (MPack _ _ _ _ _ mhash (arr_fam sum64 keq KeyBytes) (arr_fam sum64 keq KeyBytes) (arr_fam sum64 keq KeyBytes)
      (kv_layout P) Q (λ k v, with_split (set_op (arr_fam sum64 keq KeyBytes) k v) (f_new (arr_fam sum64 keq KeyBytes) zero k))
      (mod_op (arr_fam sum64 keq KeyBytes) zero) (λ _, zero) no_way any_way); try done.
    + apply kv_fam_ok.
    + apply (kv_laws sum64 KeyBytes V _ P (keq_eq _ _ He)).
    + apply kv_dig.
    + apply kv_goodway.
    + by left.
  - eapply (MPack _ _ _ _ _ unit (gen_fam Equal Hash) (gen_fam Equal Hash) (gen_mod_fam Equal Hash)
      (kv_layout P) Q (set_op (gen_fam Equal Hash)) (mod_op (gen_fam Equal Hash) zero) (λ v, v) (set_way Hash) (mod_way Hash)); try done.
    + apply kv_fam_ok.
    + apply gen_nib.
    + by apply gen_alike.
    + by apply gen_mod_alike.
    + apply (gen_goodway Equal).
    + apply (gen_mod_goodway Equal).
    + by left.
Qed.

Lemma set_pack `{HK : Countable K} {CK} (api : setapi K unit CK U) dig ok : set_type fuel api dig ok ->
  spack fuel api dig ok.
Proof.
  destruct 1 as [sum64 P Q|sum64 P Q|sum64 P Q Hi|K E C sum64 keq KeyBytes P Q He|K E C Equal Hash P Q He].
  - pose proof (kv_alike sum64 (λ k, k) unit _ P (beq_eq P)) as HA.
    eapply (SPack _ _ _ _ mhash (string_fam sum64) (string_fam sum64)
      (kv_layout P) Q (add_op (string_fam sum64) tt) any_way true); try done.
    + apply kv_fam_ok.
    + apply (kv_laws sum64 (λ k, k) unit _ P (beq_eq P)).
    + apply kv_dig.
    + apply kv_goodway.
    + intros tr op [Ho Hg]. split; [exact Ho|]. destruct op; simpl in *; auto.
  - pose proof (kv_alike sum64 (λ k, k) unit _ P (beq_eq P)) as HA.
    eapply (SPack _ _ _ _ mhash (bytes_fam sum64) (bytes_fam sum64)
      (kv_layout P) Q (add_op (bytes_fam sum64) tt) any_way false); try done.
    + apply kv_fam_ok.
    + apply (kv_laws sum64 (λ k, k) unit _ P (beq_eq P)).
    + apply kv_dig.
    + apply kv_goodway.
    + intros tr op [Ho [Hg Hn]]. split; [exact Ho|]. destruct op; simpl in *; auto; done.
  - assert (HL : laws (intset_fam (V:=unit) (U:=U) sum64) (intset_layout P)).
    { constructor. intros k k' _ _. simpl. rewrite bool_decide_eq_true. naive_solver. }
    eapply (SPack _ _ _ _ mhash (intset_fam sum64) (intset_fam sum64)
      (intset_layout P) Q (add_op (intset_fam sum64) tt) (int_way sum64) true); try done.
    + apply intset_fam_ok.
    + intros. by apply stream_nib.
    + split_and!; [apply intset_fam_ok|done|done].
    + apply (stream_goodway sum64 intbytes); try done. intros s k ck p d [Hw|Hw]; [left|by right]. simpl. by apply small_hi.
    + intros tr op [Ho Hg]. split; [|destruct op; simpl in *; auto]. eapply sallowed_impl; [|exact Ho]. intros k Hk. split; auto.
  - pose proof (kv_alike sum64 KeyBytes unit _ P (keq_eq _ _ He)) as HA.
    eapply (SPack _ _ _ _ mhash (arr_fam sum64 keq KeyBytes) (arr_fam sum64 keq KeyBytes)
      (kv_layout P) Q (add_op (arr_fam sum64 keq KeyBytes) tt) any_way true); try done.
    + apply kv_fam_ok.
    + apply (kv_laws sum64 KeyBytes unit _ P (keq_eq _ _ He)).
    + apply kv_dig.
    + apply kv_goodway.
    + intros tr op [Ho Hg]. split; [exact Ho|]. destruct op; simpl in *; auto.
  - eapply (SPack _ _ _ _ unit (gen_fam Equal Hash) (gen_fam Equal Hash)
      (kv_layout P) Q (add_op (gen_fam Equal Hash) tt) (set_way Hash) true); try done.
    + apply kv_fam_ok.
    + apply gen_nib.
    + by apply gen_alike.
    + apply (gen_goodway Equal).
    + intros tr op [Ho Hg]. split; [exact Ho|]. destruct op; simpl in *; auto.
Qed.
End pack.

(** ** Histories of every type *)
Section results.
Context {V U : Type} (zero : V) (fuel : nat) (u0 : U) (Hfuel : 256 <= fuel).

(** A simulation between executions and the specification. *)
Lemma map_sim `{Countable K} {CK} (api : mapapi K V CK U) dig ok : map_type zero fuel api dig ok ->
  ∃ R : world V CK U -> mstate K V U -> Prop,
    (∀ tr w, mrun api ok u0 tr w -> ∃ σ, mspec dig zero u0 tr σ /\ R w σ) /\
    (∀ w σ, R w σ -> ms_usr σ = w_usr w) /\
    (∀ tr w σ op, mspec dig zero u0 tr σ -> R w σ -> ok tr op ->
       ∃ res w' σ', mcall api op w = Ret res w' /\ mstep dig zero σ op res σ' /\ R w' σ' /\
         (reads op -> w' = w /\ σ' = σ)).
Proof.
  intros Ht. destruct (map_pack zero fuel api dig ok Ht) as [].
  exists (Refine.Rel F L Q). split_and!.
  - apply (Refine.run_rel F L Q HF HL Hcell zero fuel Hfuel dig Hdig FS FM sop mdop vs WS WM
      HFS HFM HWS HWM Hvs Hsop Hmop api HSet HMod HDel HGet HVal HPtr HAll ok u0 Hok).
  - by intros w σ (G & _ & _ & _ & Hu).
  - apply (Refine.rel_step F L Q HF HL Hcell zero fuel Hfuel dig Hdig FS FM sop mdop vs WS WM
      HFS HFM HWS HWM Hvs Hsop Hmop api HSet HMod HDel HGet HVal HPtr HAll ok u0 Hok).
Qed.

Lemma set_sim `{Countable K} {CK} (api : setapi K unit CK U) dig ok : set_type fuel api dig ok ->
  ∃ R : world unit CK U -> sstate K U -> Prop,
    (∀ tr w, srun api ok u0 tr w -> ∃ σ, sspec dig u0 tr σ /\ R w σ) /\
    (∀ w σ, R w σ -> ss_usr σ = w_usr w) /\
    (∀ tr w σ op, sspec dig u0 tr σ -> R w σ -> ok tr op ->
       ∃ res w' σ', scall api op w = Ret res w' /\ sstep dig σ op res σ' /\ R w' σ' /\
         (sreads op -> w' = w /\ σ' = σ)).
Proof.
  intros Ht. destruct (set_pack fuel api dig ok Ht) as [].
  exists (RefineSet.Rel F L Q). split_and!.
  - apply (RefineSet.run_rel F L Q HF HL fuel Hfuel dig Hdig FA aop W dfull tt HFA HW Haop api HAdd HDel HHas HAll ok u0 Hok).
  - by intros w σ (G & _ & _ & Hu).
  - apply (RefineSet.rel_step F L Q HF HL fuel Hfuel dig Hdig FA aop W dfull tt HFA HW Haop api HAdd HDel HHas HAll ok u0 Hok).
Qed.

(** Reading stays possible as the history grows. *)
Lemma map_ok_mono `{Countable K} {CK} (api : mapapi K V CK U) dig ok x tr op : map_type zero fuel api dig ok ->
  ok tr op -> reads op -> ok (x :: tr) op.
Proof.
  intros Ht Ho Hr.
  assert (Hm : ∀ {K'} (P : K' -> Prop) Q (x : mop K' V U * mres V) tr op, mallowed P Q tr op -> mallowed P Q (x :: tr) op).
  { intros K' P Q x' tr' op' Ha. destruct op'; simpl in *; try done; set_solver. }
  destruct Ht; try (by apply Hm); destruct Ho as [Ho Hg]; (split; [by apply Hm|]); destruct op; simpl in *; done.
Qed.
Lemma set_ok_mono `{Countable K} {CK} (api : setapi K unit CK U) dig ok x tr op : set_type fuel api dig ok ->
  ok tr op -> sreads op -> ok (x :: tr) op.
Proof.
  intros Ht Ho Hr.
  assert (Hm : ∀ {K'} (P : K' -> Prop) Q (x : sop K' U * sres) tr op, sallowed P Q tr op -> sallowed P Q (x :: tr) op).
  { intros K' P Q x' tr' op' Ha. destruct op'; simpl in *; try done; set_solver. }
  destruct Ht; try (by apply Hm); destruct Ho as [Ho Hg]; (split; [by apply Hm|]); destruct op; simpl in *; done.
Qed.

Theorem map_type_spec `{Countable K} {CK} (api : mapapi K V CK U) dig ok : map_type zero fuel api dig ok ->
  ∀ tr w, mrun api ok u0 tr w ->
  (∃ σ, mspec dig zero u0 tr σ) /\ ∀ op, ok tr op -> ∃ res w', mcall api op w = Ret res w'.
Proof.
  intros Ht tr w Hr. destruct (map_pack zero fuel api dig ok Ht) as [].
  apply (Refine.run_spec F L Q HF HL Hcell zero fuel Hfuel dig Hdig FS FM sop mdop vs WS WM
    HFS HFM HWS HWM Hvs Hsop Hmop api HSet HMod HDel HGet HVal HPtr HAll ok u0 Hok tr w Hr).
Qed.

Theorem set_type_spec `{Countable K} {CK} (api : setapi K unit CK U) dig ok : set_type fuel api dig ok ->
  ∀ tr w, srun api ok u0 tr w ->
  (∃ σ, sspec dig u0 tr σ) /\ ∀ op, ok tr op -> ∃ res w', scall api op w = Ret res w'.
Proof.
  intros Ht tr w Hr. destruct (set_pack fuel api dig ok Ht) as [].
  apply (RefineSet.run_spec F L Q HF HL fuel Hfuel dig Hdig FA aop W dfull tt HFA HW Haop api HAdd HDel HHas HAll ok u0 Hok tr w Hr).
Qed.
End results.
