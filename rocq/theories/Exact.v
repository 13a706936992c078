(** Proofs for ExactSpec.v. *)
From Coq Require Import Sorted SpecFloat.
From stdpp Require Import base numbers list gmap.
From Verif Require Import GoInt Mem Hash Amt Families BitsFacts Steps Tree Rep Paths Descend Insert Split Delete Remove Core Scan Order Heap Spec SpecFacts Guards HashFacts Client Types Refine RefineSet Instances Pack ExactSpec.
Local Open Scope nat_scope.

(** ** Where a traversal stops *)
Section stops.
Context `{Countable K} {HS V CK U : Type}.
Variables (F : fam K HS V CK U) (L : layout K V CK).
Local Notation D := 240.
Local Notation world := (world V CK U).
Local Notation tree := (tree K).
Implicit Types (w : world) (T : tree) (k : K) (h : loc) (s : N).
Hypothesis HF : fam_ok F L.
Hypothesis HL : laws F L.
Variables (fuel : nat).
Hypothesis Hfuel : 256 <= fuel.
Variable dig : N -> K -> nat -> N.
Hypothesis Hdig : ∀ s k d, nib F s k d = dig s k d.
Local Notation Good s := (Good F L D s).

Lemma missing_path s T k c a cs q k' p : wf T -> placed F s T -> stops_missing F s k T c a cs ->
  (q, (k', p)) ∈ pleaves [] T -> q ≠ nibs F s k (length q).
Proof.
  intros Hwf Hpl (HT & Hr & Hn) Hin Hq.
  assert (Hw : well F s (q, (k', p))) by (by eapply Forall_forall in Hpl). unfold well in Hw. simpl in Hw.
  rewrite <- HT in Hin, Hwf, Hpl. rewrite pleaves_plug, elem_of_app in Hin. destruct Hin as [Hin|Hin].
  - pose proof (ctxpl_diverge _ _ _ Hwf Hin) as Hd. simpl in Hd. rewrite Hq, Hr in Hd.
    by apply nibs_no_diverge in Hd.
  - cbn [pleaves] in Hin. fold (cspl (rads c) cs) in Hin.
    apply cspl_pre in Hin as (c0 & s0 & Hc & _ & Hq0). apply Hn. simpl in Hq0.
    assert (c0.1 = nib F s k (length c)) as <-.
    { rewrite Hq in Hq0. apply (f_equal (λ l, l !! length c)) in Hq0.
      rewrite <- (rads_length c) in Hq0 at 2. rewrite list_lookup_middle in Hq0 by done.
      pose proof (lookup_lt_Some _ _ _ Hq0) as Hlt. rewrite nibs_length in Hlt.
      rewrite nibs_lookup in Hq0 by done. congruence. }
    apply elem_of_list_In, in_map. by apply elem_of_list_In.
Qed.

(** Conversely to [way_of]. *)
Lemma of_way s w h T k k' ks : Good s w h T -> ks ≡ₚ map fst (leaves T) -> in_way dig s ks k k' ->
  ∃ q p, (q, (k', p)) ∈ pleaves [] T /\ q = nibs F s k (length q).
Proof.
  intros HG Hks (Hin & Hne & Hlt). rewrite Hks in Hin.
  apply elem_of_list_In, in_map_iff in Hin as ([k0 p] & E & Hin). simpl in E. subst k0.
  apply elem_of_list_In, entry_of in Hin as [q Hin]. exists q, p. split; [done|].
  assert (Hw : well F s (q, (k', p))).
  { destruct HG as [_ Hpl]. unfold placed in Hpl. rewrite Forall_forall in Hpl. by apply Hpl. }
  assert (Hd : depth dig s ks k' = length q - 1).
  { rewrite (depth_perm dig s ks _ k' Hks).
    rewrite (depth_ext dig (λ s k, Descend.nib F s k)) by (intros; by rewrite Hdig).
    by rewrite <- (depth_spec F L D s w h T (q, (k', p)) le240 HG Hin). }
  rewrite Hd in Hlt. unfold well in Hw. simpl in Hw.
  rewrite Hw at 1. unfold nibs. apply map_ext_in. intros i Hi. apply in_seq in Hi.
  rewrite !Hdig. destruct (common_spec 241 (dig s k) (dig s k')) as (_ & Hc & _).
  symmetry. apply Hc. lia.
Qed.

Lemma missing_free s w h T k c a cs ks : Good s w h T -> ks ≡ₚ map fst (leaves T) ->
  stops_missing F s k T c a cs -> ¬ hindered dig s ks k.
Proof.
  intros HG Hks Hst [k' Hw]. destruct (of_way _ _ _ _ _ _ _ HG Hks Hw) as (q & p & Hin & Hq).
  revert Hq. eapply missing_path; [by eapply Good_wf|apply HG|done|done].
Qed.

Lemma present_way s w h T k c a bef k' p aft ks : Good s w h T -> ks ≡ₚ map fst (leaves T) ->
  stops_present F s k T c a bef k' p aft -> k' ≠ k -> in_way dig s ks k k'.
Proof.
  intros HG Hks (HT & Hr) Hne.
  eapply (way_of F L dig Hdig s w h T k (rads c ++ [nib F s k (length c)]) k' p); try done.
  - rewrite <- HT. rewrite pleaves_plug, elem_of_app. right.
    rewrite pleaves_node, cspl_app, cspl_cons. cbn [fst snd pleaves]. set_solver +.
  - rewrite app_length, rads_length. simpl. rewrite Nat.add_1_r, nibs_S, <- Hr. done.
Qed.
End stops.

(** No stored key is in the way of a stored key. *)
Lemma common_sym n : ∀ x y, common n x y = common n y x.
Proof.
  induction n as [|n IH]; intros x y; simpl; [done|]. rewrite N.eqb_sym. destruct (_ =? _)%N; [|done]. by rewrite IH.
Qed.
Lemma depth_other `{Countable K} (dig : N -> K -> nat -> N) s ks k k' : k ∈ ks -> k ≠ k' ->
  common 241 (dig s k') (dig s k) <= depth dig s ks k'.
Proof.
  intros Hin Hne. unfold depth. induction Hin as [k ks|k x ks Hin IH]; simpl.
  - rewrite decide_False by done. apply Nat.le_max_l.
  - etransitivity; [by apply IH|]. apply Nat.le_max_r.
Qed.
Lemma stored_free `{Countable K} (dig : N -> K -> nat -> N) s ks k : k ∈ ks -> ¬ hindered dig s ks k.
Proof.
  intros Hin [k' (_ & Hne & Hlt)]. pose proof (depth_other dig s ks k k' Hin ltac:(done)) as Hx.
  rewrite common_sym in Hx. lia.
Qed.

(** At most one key is in the way of a key. *)
Lemma way_unique `{Countable K} (dig : N -> K -> nat -> N) s ks k k1 k2 :
  in_way dig s ks k k1 -> in_way dig s ks k k2 -> k1 = k2.
Proof.
  intros (H1 & _ & Hd1) (H2 & _ & Hd2). destruct (decide (k1 = k2)) as [|Hne]; [done|exfalso].
  pose proof (depth_other dig s ks k2 k1 H2 (not_eq_sym Hne)) as Ha.
  pose proof (depth_other dig s ks k1 k2 H1 Hne) as Hb. rewrite common_sym in Hb.
  destruct (common_spec 241 (dig s k) (dig s k1)) as (Hl1 & He1 & _).
  destruct (common_spec 241 (dig s k) (dig s k2)) as (Hl2 & He2 & _).
  assert (Hm : min (common 241 (dig s k) (dig s k1)) (common 241 (dig s k) (dig s k2)) <= common 241 (dig s k1) (dig s k2)).
  { apply common_ge; [lia|]. intros i Hi. rewrite <- He1, <- He2 by lia. done. }
  lia.
Qed.

(** ** Operations that differ in the struct they make after a conflict *)
Section ext.
Context `{Countable K} {HS V CK U : Type}.
Variables (F : fam K HS V CK U) (L : layout K V CK).
Local Notation D := 240.
Local Notation world := (world V CK U).
Local Notation tree := (tree K).
Implicit Types (w : world) (T : tree) (k : K) (h : loc) (s : N).
Hypothesis HF : fam_ok F L.
Hypothesis HL : laws F L.
Variables (fuel : nat).
Hypothesis Hfuel : 256 <= fuel.
Variable dig : N -> K -> nat -> N.
Hypothesis Hdig : ∀ s k d, nib F s k d = dig s k d.
Local Notation Good s := (Good F L D s).

Lemma insert_ext v v' s w h T k ks : Good s w h T -> ks ≡ₚ map fst (leaves T) -> ly_ok L k ->
  (hindered dig s ks k /\
   insert F (with_split (set_op F k v) (f_new F v' k)) fuel (Some h) k w = insert F (set_op F k v') fuel (Some h) k w) \/
  (¬ hindered dig s ks k /\
   insert F (with_split (set_op F k v) (f_new F v' k)) fuel (Some h) k w = insert F (set_op F k v) fuel (Some h) k w).
Proof.
  intros HG Hks Hok. destruct (load_seed _ _ _ _ _ _ _ HG) as (rt & Hrt & Hs).
  unfold insert. rewrite !(bind_Ret _ _ _ _ _ (load_root_step _ _ _ Hrt)). rewrite Hs.
  destruct (descend_plain F L D s le240 w h T k fuel HG Hfuel) as (c & a & [(cs & Hst & Hd)|(bef & k' & p & aft & Hst & Hd)]);
    rewrite !(bind_Ret _ _ _ _ _ Hd).
  - right. split; [|done]. by eapply missing_free.
  - assert (Hin : (k', p) ∈ leaves T) by (by eapply present_leaf).
    destruct (Good_ok _ _ _ _ _ _ _ _ _ HG Hin) as [Hok' Hcell].
    unfold add_present.
    rewrite !(bind_Ret _ _ _ _ _ (load_link_step _ _ _ (item_at _ _ _ _ _ _ _ _ _ _ _ _ _ _ HG Hst))).
    rewrite !(bind_Ret _ _ _ _ _ (fo_key _ _ HF _ _ _ Hok' Hcell)).
    destruct (f_eq F k k') eqn:E.
    + right. apply (la_eq _ _ HL) in E; [|done|done]. subst k'. split; [|done]. apply stored_free. rewrite Hks.
      apply elem_of_list_In, in_map_iff. exists (k, p). split; [done|]. by apply elem_of_list_In.
    + left. split; [|done]. exists k'. eapply present_way; try done.
      intros ->. assert (f_eq F k k = true) by (by apply (la_eq _ _ HL)). congruence.
Qed.
End ext.

(** ** ArrMap *)
Section arrmap.
Context `{HK : Countable K} {V U : Type} (zero : V) (u0 : U) (fuel : nat) (Hfuel : 256 <= fuel).
Variables (sum64 : N -> bytes -> N) (keq : K -> K -> bool) (KeyBytes : K -> bytes) (P : K -> Prop) (Q : N -> Prop).
Hypothesis He : decides_eq keq P.
Local Notation AF := (arr_fam (V:=V) (U:=U) sum64 keq KeyBytes).
Local Notation api := (ArrMap_api (V:=V) (U:=U) sum64 zero fuel keq KeyBytes).
Local Notation dig := (arr_digit sum64 KeyBytes).
Local Notation Rel := (Refine.Rel AF (kv_layout P) Q).
Local Notation ok := (λ (tr : list (mop K V U * mres V)) (op : mop K V U), mallowed P Q tr op /\ ins_guard dig any_way any_way tr op).
Implicit Types (σ : mstate K V U) (tr : list (mop K V U * mres V)) (op : mop K V U).

(** The type with a Set that keeps the value. *)
Definition kept : mapapi K V K U := MapApi (λ h k v, insert AF (set_op AF k v) fuel h k)
  (ma_Mod api) (ma_Del api) (ma_Get api) (ma_Val api) (ma_Ptr api) (ma_All api).

Lemma arr_alike : alike AF (kv_layout P) AF.
Proof. apply (kv_alike sum64 KeyBytes V _ P (keq_eq _ _ He)). Qed.

Lemma kept_step tr w σ op : mspec dig zero u0 tr σ -> Rel w σ -> ok tr op ->
  ∃ res w' σ', mcall kept op w = Ret res w' /\ mstep dig zero σ op res σ' /\ Rel w' σ'.
Proof.
  intros Hs HR Ho.
  destruct (Refine.rel_step AF (kv_layout P) Q (kv_fam_ok P _ _ _ _) (kv_laws sum64 KeyBytes V _ P (keq_eq _ _ He)) eq_refl
    zero fuel Hfuel dig (kv_dig sum64 KeyBytes V _) AF AF (set_op AF) (mod_op AF zero) (λ v, v) any_way any_way
    arr_alike arr_alike) with (api := kept) (ok := ok) (u0 := u0) (tr := tr) (w := w) (σ := σ) (op := op)
    as (res & w' & σ' & Hc & Hst & HR' & _); try done; try apply kv_goodway.
  by exists res, w', σ'.
Qed.

(** What the calls of ArrMap come down to. *)
Lemma arr_call w σ op : Rel w σ -> (∀ h k v, op = MSet h k v -> is_Some (ms_map σ !! h) /\ P k) ->
  ∃ op', mcall api op w = mcall kept op' w /\ (∀ res σ', mstep dig zero σ op' res σ' -> zstep dig zero σ op res σ') /\
    (op' = op \/ ∃ h k v, op = MSet h k v /\ op' = MSet h k zero).
Proof.
  intros HR Hset. destruct op as [s|h k v|h k f|h k|h k|h k|h k|h|h|h f|p|p v]; try (eexists; split_and!; [..|by left]; done).
  destruct (Hset h k v eq_refl) as [Hh HP].
  destruct (Refine.Rel_handle _ _ _ _ _ _ HR Hh) as (G & s & T & HI & HGh & HQ & HG & Hm & Hmh & Hv & Hu).
  assert (Hks : (map_to_list (dict T)).*1 ≡ₚ map fst (leaves T)).
  { rewrite (dict_list AF (kv_layout P) eq_refl s w h T HG). by rewrite (ent_keys AF (kv_layout P) eq_refl s w h T HG). }
  destruct (insert_ext AF (kv_layout P) (kv_fam_ok P _ _ _ _) (kv_laws sum64 KeyBytes V _ P (keq_eq _ _ He)) fuel Hfuel
    dig (kv_dig sum64 KeyBytes V _) v zero s w h T k _ HG Hks HP) as [[Hw E]|[Hw E]].
  - exists (MSet h k zero). split_and!.
    + unfold mcall. change (ma_Set api (Some h) k v) with
        (insert AF (with_split (set_op AF k v) (f_new AF zero k)) fuel (Some h) k).
      unfold bind at 1. rewrite E. done.
    + intros res σ' Hst. exists s, (dict T). split; [done|]. by left.
    + right. eauto.
  - exists (MSet h k v). split_and!.
    + unfold mcall. change (ma_Set api (Some h) k v) with
        (insert AF (with_split (set_op AF k v) (f_new AF zero k)) fuel (Some h) k).
      unfold bind at 1. rewrite E. done.
    + intros res σ' Hst. exists s, (dict T). split; [done|]. by right.
    + by left.
Qed.

(** Histories that differ only in the values given to Set. *)
Definition same1 (x y : mop K V U * mres V) : Prop :=
  x.2 = y.2 /\ (x.1 = y.1 \/ ∃ h k v v', x.1 = MSet h k v /\ y.1 = MSet h k v').
Definition same tr tr' : Prop := Forall2 same1 tr tr'.

Lemma same_in tr tr' op r : same tr tr' -> (∀ h k v, op ≠ MSet h k v) -> (op, r) ∈ tr -> (op, r) ∈ tr'.
Proof.
  intros Hs Hn Hin. induction Hs as [|[x rx] [y ry] tr tr' [Hr Ho] Hs IH]; [by apply elem_of_nil in Hin|].
  simpl in *. apply elem_of_cons in Hin as [Hin|Hin].
  - injection Hin as -> ->. subst ry. destruct Ho as [->|(h & k & v & v' & -> & _)]; [left|]. by destruct (Hn h k v).
  - right. auto.
Qed.
Lemma same_stored tr tr' h : same tr tr' -> stored tr h = stored tr' h.
Proof.
  induction 1 as [|[x rx] [y ry] tr tr' [Hr Ho] Hs IH]; [done|]. simpl in *.
  destruct Ho as [->|(h' & k & v & v' & -> & ->)]; [|by rewrite IH]. by destruct y; rewrite ?IH.
Qed.
Lemma same_sym tr tr' : same tr tr' -> same tr' tr.
Proof.
  intros Hs. apply Forall2_flip. eapply Forall2_impl; [exact Hs|].
  intros x y [Hr Ho]. split; [done|]. destruct Ho as [->|(h & k & v & v' & -> & ->)]; [by left|right; eauto 8].
Qed.
Lemma same_ok tr tr' op op' r : same tr tr' -> same1 (op, r) (op', r) -> ok tr op -> ok tr' op'.
Proof.
  intros Hs [_ Ho] [Ha Hg]. simpl in Ho.
  assert (Hm : mallowed P Q tr op').
  { destruct Ho as [<-|(h & k & v & v' & -> & ->)]; [done|exact Ha]. }
  assert (Hg' : ins_guard dig any_way any_way tr op').
  { destruct Ho as [<-|(h & k & v & v' & -> & ->)]; [done|exact Hg]. }
  assert (Hlive : ∀ h, (∃ s, (MNew s, RHandle h) ∈ tr) -> ∃ s, (MNew s, RHandle h) ∈ tr').
  { intros h [s Hin]. exists s. by eapply same_in. }
  assert (Hptr : ∀ p, (∃ h k, (MPtr h k, RPtr (Some p)) ∈ tr) -> ∃ h k, (MPtr h k, RPtr (Some p)) ∈ tr').
  { intros p (h & k & Hin). exists h, k. by eapply same_in. }
  assert (Hfine : ∀ h k, k ∈ stored tr h \/ (∀ s, (MNew s, RHandle h) ∈ tr -> free dig any_way s (elements (stored tr h)) k) ->
    k ∈ stored tr' h \/ (∀ s, (MNew s, RHandle h) ∈ tr' -> free dig any_way s (elements (stored tr' h)) k)).
  { intros h k Hf. rewrite <- (same_stored _ _ h Hs). destruct Hf as [Hf|Hf]; [by left|right].
    intros s Hin. apply Hf. eapply same_in; [by apply same_sym|done|done]. }
  split; destruct op'; simpl in *; try done; naive_solver.
Qed.

Lemma arr_run tr w : mrun api ok u0 tr w -> ∃ tr' σ, same tr tr' /\ mspec dig zero u0 tr' σ /\ zspec dig zero u0 tr σ /\ Rel w σ.
Proof.
  assert (Hstep : ∀ tr tr' w σ op, same tr tr' -> mspec dig zero u0 tr' σ -> Rel w σ -> ok tr op ->
    ∃ op' res w' σ', mcall api op w = Ret res w' /\ same ((op, res) :: tr) ((op', res) :: tr') /\
      mstep dig zero σ op' res σ' /\ zstep dig zero σ op res σ' /\ Rel w' σ').
  { clear tr w. intros tr tr' w σ op Hs Hsp HR Ho.
    assert (Hh : ∀ h k v, op = MSet h k v -> is_Some (ms_map σ !! h) /\ P k).
    { intros h k v ->. destruct (same_ok _ _ _ (MSet h k v) RUnit Hs (conj eq_refl (or_introl eq_refl)) Ho) as [[[s Hin] HP] _].
      split; [|done]. by eapply mspec_live. }
    destruct (arr_call w σ op HR Hh) as (op' & Hc & Hz & Hd).
    assert (Hsame : ∀ r, same1 (op, r) (op', r)).
    { intros r. split; [done|]. simpl. destruct Hd as [->|(h & k & v & -> & ->)]; [by left|right; eauto 8]. }
    destruct (kept_step tr' w σ op' Hsp HR (same_ok _ _ _ _ RUnit Hs (Hsame _) Ho)) as (res & w' & σ' & Hc' & Hst & HR').
    exists op', res, w', σ'. split_and!; [congruence|by constructor|done|by apply Hz|done]. }
  intros Hr. enough (∃ tr' σ, same tr tr' /\ mspec dig zero u0 tr' σ /\ zspec dig zero u0 tr σ /\ Rel w σ) as Hx by exact Hx.
  induction Hr as [|tr w op res w' Hr IH Ho Hc].
  - exists [], (minit u0). split_and!; [constructor|constructor|constructor|apply Refine.Rel_init].
  - destruct IH as (tr' & σ & Hs & Hsp & Hz & HR).
    destruct (Hstep _ _ _ _ _ Hs Hsp HR Ho) as (op' & res' & w'' & σ' & Hc' & Hs' & Hst & Hzs & HR').
    rewrite Hc in Hc'. injection Hc' as <- <-. exists ((op', res) :: tr'), σ'. split_and!; try done; by econstructor.
Qed.

Lemma arr_returns tr w op : mrun api ok u0 tr w -> ok tr op -> ∃ res w', mcall api op w = Ret res w'.
Proof.
  intros Hr Ho. destruct (arr_run tr w Hr) as (tr' & σ & Hs & Hsp & Hz & HR).
  assert (Hh : ∀ h k v, op = MSet h k v -> is_Some (ms_map σ !! h) /\ P k).
  { intros h k v ->. destruct (same_ok _ _ _ (MSet h k v) RUnit Hs (conj eq_refl (or_introl eq_refl)) Ho) as [[[s Hin] HP] _].
    split; [|done]. by eapply mspec_live. }
  destruct (arr_call w σ op HR Hh) as (op' & Hc & _ & Hd).
  assert (Hsame : same1 (op, RUnit) (op', RUnit)).
  { split; [done|]. simpl. destruct Hd as [->|(h & k & v & -> & ->)]; [by left|right; eauto 8]. }
  destruct (kept_step tr' w σ op' Hsp HR (same_ok _ _ _ _ RUnit Hs Hsame Ho)) as (res & w' & σ' & Hc' & _).
  exists res, w'. congruence.
Qed.

Theorem arr_exact tr w : mrun api ok u0 tr w ->
  (∃ σ, zspec dig zero u0 tr σ) /\ ∀ op, ok tr op -> ∃ res w', mcall api op w = Ret res w'.
Proof.
  intros Hr. split; [|intros op Ho; by eapply arr_returns].
  destruct (arr_run tr w Hr) as (tr' & σ & _ & _ & Hz & _). eauto.
Qed.
End arrmap.

(** ** BytesSet *)
Section bytesset.
Context {U : Type} (u0 : U) (fuel : nat) (Hfuel : 256 <= fuel).
Variables (sum64 : N -> bytes -> N) (P : bytes -> Prop) (Q : N -> Prop).
Local Notation BF := (bytes_fam (V:=unit) (U:=U) sum64).
Local Notation api := (BytesSet_api (U:=U) sum64 fuel).
Local Notation dig := (digit sum64).
Local Notation L := (kv_layout (V:=unit) P).
Local Notation Rel := (RefineSet.Rel BF L Q).
Local Notation ok := (λ (tr : list (sop bytes U * sres)) (op : sop bytes U), sallowed P Q tr op /\ dguard dig u0 tr op).
Implicit Types (σ : sstate bytes U) (tr : list (sop bytes U * sres)) (op : sop bytes U) (T : tree bytes).

Lemma bytes_alike : alike BF L BF.
Proof. apply (kv_alike sum64 (λ k, k) unit _ P (beq_eq P)). Qed.
Lemma bytes_laws : laws BF L.
Proof. apply (kv_laws sum64 (λ k, k) unit _ P (beq_eq P)). Qed.
Lemma bytes_dig s k d : nib BF s k d = dig s k d.
Proof. apply (kv_dig sum64 (λ k, k) unit). Qed.

Lemma del_step w σ h k : Rel w σ -> is_Some (ss_set σ !! h) -> P k ->
  ∃ w' σ', scall api (SDel h k) w = Ret TUnit w' /\ dstep dig σ (SDel h k) TUnit σ' /\ Rel w' σ'.
Proof.
  intros [G HR] Hh HP.
  destruct (RefineSet.RelG_handle _ _ _ _ _ _ _ HR Hh) as (s & T & HI & HGh & HQ & HG & Hm & Hmh & Hu).
  pose proof (keys_list BF L s w h T HG) as Hks. pose proof HI as [Hwok Hg Hsep].
  assert (Hfree : ¬ hindered dig s (elements (keys T)) k -> ∀ w', sbp h w w' ->
    delete_gen BF (λ b, b) fuel (Some h) k w = Ret tt w' ->
    ∃ w' σ', scall api (SDel h k) w = Ret TUnit w' /\ dstep dig σ (SDel h k) TUnit σ' /\ Rel w' σ').
  { intros Hn w' Hs Hrun. exists w', σ. split_and!.
    - unfold scall. change (sa_Del api (Some h) k) with (delete_gen BF (λ b, b) fuel (Some h) k).
      by rewrite (bind_Ret _ _ _ _ _ Hrun).
    - split; [done|]. exists s, (keys T). split; [done|]. by right.
    - assert (Hq : quiet (λ l, l = h) w w') by (by eapply sbp_quiet).
      exists G. split_and!; [|done|by rewrite (qu_usr _ _ _ Hq)].
      rewrite <- (insert_id G h (s, T)) by done.
      eapply (Inv_update BF L 240 Q le240 w w' G h s T T HI HGh).
      + by apply (qu_ok _ _ _ Hq).
      + intros l Hl Hnf. apply keep_same. eapply sbp_ne; [done|]. intros ->. apply Hnf. unfold foot. set_solver +.
      + by eapply Good_sbp.
      + auto. }
  destruct (delete_gen_spec BF L (kv_fam_ok P _ _ _ _) 240 s le240 bytes_laws (λ b, b) w h T k fuel HG Hwok Hfuel)
    as [(c & a & cs & w' & Hst & Hrun & Hs)|(c & a & bef & k' & p & aft & Hst & Hres)].
  - eapply Hfree; [|done|done]. by eapply (missing_free BF L fuel Hfuel dig bytes_dig).
  - assert (Hin : (k', p) ∈ leaves T) by exact (present_leaf BF L (kv_fam_ok P _ _ _ _) 240 s le240 bytes_laws T k c a bef k' p aft Hst).
    destruct (f_eq BF k k') eqn:E.
    + destruct Hres as (w' & Hrun & Hs). eapply Hfree; [|done|done]. apply stored_free.
      simpl in E. apply bool_decide_eq_true in E. subst k'. apply elem_of_elements, keys_in. eauto.
    + destruct Hres as (w' & T' & Hrun & Hq & HG' & Hlv & Hfoot & _).
      assert (Hne : k' ≠ k) by (intros ->; simpl in E; by apply bool_decide_eq_false in E).
      exists w', (SState (<[h := (s, keys T ∖ {[k']})]> (ss_set σ)) (ss_usr σ)). split_and!.
      * unfold scall. change (sa_Del api (Some h) k) with (delete_gen BF (λ b, b) fuel (Some h) k).
        by rewrite (bind_Ret _ _ _ _ _ Hrun).
      * split; [done|]. exists s, (keys T). split; [done|]. left. exists k'. split; [|done].
        exact (present_way BF L dig bytes_dig s w h T k c a bef k' p aft _ HG Hks Hst Hne).
      * exists (<[h := (s, T')]> G). split_and!; simpl.
        -- eapply (Inv_update BF L 240 Q le240 w w' G h s T T' HI HGh); [by apply (qu_ok _ _ _ Hq)| |done|].
           ++ intros l Hl Hnf. apply keep_same. by apply (qu_frame _ _ _ Hq).
           ++ intros l Hl. destruct (Hfoot l Hl); [by left|right; lia].
        -- rewrite set_insert_keys, Hm. replace (keys T') with (keys T ∖ {[k']}); [done|].
           assert (Hnd : NoDup (map fst (leaves T))) by (eapply keys_nodup; [by eapply Good_wf|apply HG]).
           rewrite Hlv in Hnd. simpl in Hnd. apply NoDup_cons in Hnd as [Hnk _].
           unfold keys. rewrite Hlv. simpl.
           assert (Hx : k' ∉ (list_to_set (map fst (leaves T')) : gset bytes)) by (by rewrite elem_of_list_to_set).
           set_solver +Hx.
        -- by rewrite (qu_usr _ _ _ Hq).
Qed.

Lemma dspec_live tr σ : dspec dig u0 tr σ -> ∀ s h, (SNew s, THandle h) ∈ tr -> is_Some (ss_set σ !! h).
Proof.
  induction 1 as [|tr σ op res σ' Hsp IH Hst]; intros s h Hin; [by apply elem_of_nil in Hin|].
  assert (Hk : ∀ h, is_Some (ss_set σ !! h) -> is_Some (ss_set σ' !! h)).
  { intros h' Hh'. destruct op; simpl in Hst.
    - destruct Hst as (h0 & _ & _ & ->). simpl. apply lookup_insert_is_Some'. auto.
    - destruct Hst as (_ & s0 & X & _ & ->). simpl. apply lookup_insert_is_Some'. auto.
    - destruct Hst as (_ & s0 & X & _ & [(k' & _ & ->)|[_ ->]]); [|done]. simpl. apply lookup_insert_is_Some'. auto.
    - by destruct Hst as [-> _].
    - by destruct Hst as [-> _].
    - by destruct Hst as [-> _].
    - destruct Hst as (_ & s0 & X & ks & _ & _ & _ & ->). done. }
  apply elem_of_cons in Hin as [E|Hin]; [|apply Hk; by eapply IH].
  injection E as <- <-. destruct Hst as (h0 & [= <-] & _ & ->). simpl. rewrite lookup_insert. eauto.
Qed.

Lemma bytes_step tr w σ op : dspec dig u0 tr σ -> Rel w σ -> ok tr op ->
  ∃ res w' σ', scall api op w = Ret res w' /\ dstep dig σ op res σ' /\ Rel w' σ'.
Proof.
  intros Hs HR [Ha Hg]. pose proof (dspec_live tr σ Hs) as Hl.
  assert (Hother : RefineSet.can L Q dig any_way false σ op ->
    ∃ res w' σ', scall api op w = Ret res w' /\ dstep dig σ op res σ' /\ Rel w' σ').
  { intros Hcan. destruct (RefineSet.step_ok BF L Q (kv_fam_ok P _ _ _ _) bytes_laws fuel Hfuel dig bytes_dig BF
      (add_op BF tt) any_way false tt bytes_alike) with (api := api) (w := w) (σ := σ) (op := op)
      as (res & w' & σ' & Hc & Hst & HR'); try done; [apply (kv_goodway sum64 (λ k, k))|].
    exists res, w', σ'. split_and!; try done. destruct op; try done. by destruct Hcan as (_ & _ & ?). }
  destruct op as [s|h k|h k|h k|h|h|h f]; simpl in Ha.
  - by apply Hother.
  - destruct Ha as [[s Hh] HP]. apply Hother. destruct (Hl _ _ Hh) as [[s' X] HX].
    split_and!; [by rewrite HX|done|]. exists s', X. split; [done|].
    destruct (Hg σ s' X Hs HX) as [Hx|Hx]; [by left|right]. intros k' Hw. split; [by apply Hx|done].
  - destruct Ha as [[s Hh] HP]. destruct (del_step w σ h k HR (Hl _ _ Hh) HP) as (w' & σ' & Hx). eauto.
  - destruct Ha as [[s Hh] HP]. apply Hother. split; [by eapply Hl|done].
  - destruct Ha as [s Hh]. apply Hother. by eapply Hl.
  - destruct Ha as [s Hh]. apply Hother. by eapply Hl.
  - destruct Ha as [s Hh]. apply Hother. by eapply Hl.
Qed.

Theorem bytes_exact tr w : srun api ok u0 tr w ->
  (∃ σ, dspec dig u0 tr σ) /\ ∀ op, ok tr op -> ∃ res w', scall api op w = Ret res w'.
Proof.
  intros Hr.
  assert (Hx : ∃ σ, dspec dig u0 tr σ /\ Rel w σ).
  { induction Hr as [|tr w op res w' Hr IH Ho Hc].
    - exists (sinit u0). split; [constructor|apply RefineSet.Rel_init].
    - destruct IH as (σ & Hs & HR). destruct (bytes_step tr w σ op Hs HR Ho) as (res' & w'' & σ' & Hc' & Hst & HR').
      rewrite Hc in Hc'. injection Hc' as <- <-. exists σ'. split; [by econstructor|done]. }
  destruct Hx as (σ & Hs & HR). split; [eauto|]. intros op Ho.
  destruct (bytes_step tr w σ op Hs HR Ho) as (res & w' & _ & Hc & _). eauto.
Qed.
End bytesset.

(** ** Separated keys *)
Section separated.
Context {U : Type} (u0 : U) (fuel : nat) (Hfuel : 256 <= fuel).
Variables (sum64 : N -> bytes -> N) (P : bytes -> Prop) (Q : N -> Prop).
Local Notation dig := (digit sum64).
Hypothesis Hsep : separates dig P Q 240.
Implicit Types (σ : sstate bytes U) (tr : list (sop bytes U * sres)) (op : sop bytes U).

Lemma dspec_keys tr σ : dspec dig u0 tr σ ->
  (∀ a op res b, tr = a ++ (op, res) :: b -> sallowed P Q b op) ->
  ∀ h s X, ss_set σ !! h = Some (s, X) -> Q s /\ ∀ k, k ∈ X -> P k.
Proof.
  induction 1 as [|tr σ op res σ' Hsp IH Hst]; intros Hal h s X HX; [done|].
  pose proof (Hal [] op res tr eq_refl) as Ho.
  specialize (IH (λ a o r b E, Hal ((op, res) :: a) o r b (f_equal (cons (op, res)) E))). clear Hal Hsp.
  destruct op as [s1|h1 k1|h1 k1|h1 k1|h1|h1|h1 f]; simpl in Hst, Ho.
  - destruct Hst as (h0 & _ & _ & ->). simpl in HX. destruct (decide (h0 = h)) as [->|Hne].
    + rewrite lookup_insert in HX. injection HX as <- <-. split; [done|]. intros k Hk. by apply elem_of_empty in Hk.
    + rewrite lookup_insert_ne in HX by done. eauto.
  - destruct Hst as (_ & s0 & X0 & H0 & ->). simpl in HX. destruct (decide (h1 = h)) as [->|Hne].
    + rewrite lookup_insert in HX. injection HX as <- <-. destruct (IH _ _ _ H0) as [HQ HP]. split; [done|].
      intros k [->%elem_of_singleton|Hk]%elem_of_union; [by destruct Ho|auto].
    + rewrite lookup_insert_ne in HX by done. eauto.
  - destruct Hst as (_ & s0 & X0 & H0 & [(k' & _ & ->)|[_ ->]]); [|eauto]. simpl in HX. destruct (decide (h1 = h)) as [->|Hne].
    + rewrite lookup_insert in HX. injection HX as <- <-. destruct (IH _ _ _ H0) as [HQ HP]. split; [done|].
      intros k [Hk _]%elem_of_difference. auto.
    + rewrite lookup_insert_ne in HX by done. eauto.
  - destruct Hst as [-> _]. eauto.
  - destruct Hst as [-> _]. eauto.
  - destruct Hst as [-> _]. eauto.
  - destruct Hst as (_ & s0 & X0 & ks & _ & _ & _ & ->). eauto.
Qed.

Lemma sep_dguard tr w op : srun (BytesSet_api (U:=U) sum64 fuel) (sallowed P Q) u0 tr w -> sallowed P Q tr op ->
  dguard dig u0 tr op.
Proof.
  intros Hr Ho. destruct op as [|h k| | | | |]; try done. intros σ s X Hs HX. right. intros k' (Hin & Hne & _).
  assert (Hal : ∀ a o r b, tr = a ++ (o, r) :: b -> sallowed P Q b o).
  { clear Hs HX Ho. induction Hr as [|tr w op res w' Hr IH Ho Hc]; intros a o r b E; [by destruct a|].
    destruct a as [|x a]; simpl in E; [by injection E as -> -> ->|]. injection E as _ ->. by eapply IH. }
  destruct (dspec_keys tr σ Hs Hal h s X HX) as [HQ HP].
  apply Hsep; [done|by destruct Ho| |done]. apply HP. by apply elem_of_elements.
Qed.

Theorem bytes_exact_separated tr w : srun (BytesSet_api (U:=U) sum64 fuel) (sallowed P Q) u0 tr w ->
  (∃ σ, dspec dig u0 tr σ) /\ ∀ op, sallowed P Q tr op -> ∃ res w', scall (BytesSet_api sum64 fuel) op w = Ret res w'.
Proof.
  intros Hr.
  assert (Hr' : srun (BytesSet_api sum64 fuel) (λ tr op, sallowed P Q tr op /\ dguard dig u0 tr op) u0 tr w).
  { induction Hr as [|tr w op res w' Hr IH Ho Hc]; econstructor; try done. split; [done|]. by eapply sep_dguard. }
  destruct (bytes_exact u0 fuel Hfuel sum64 P Q tr w Hr') as [Hx Hy]. split; [done|].
  intros op Ho. apply Hy. split; [done|]. by eapply sep_dguard.
Qed.
End separated.
