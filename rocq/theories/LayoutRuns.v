(** Runs with a memory of bytes are runs of ReuseSpec.v. *)
From stdpp Require Import base numbers list gmap relations.
From Verif Require Import GoInt Mem Hash Prog Spec PAmt PFam ProgSim Amt Families Client Types PClient KeepSpec GcSpec ConcClient ReuseSpec.
From Verif Require Import LayoutSpec Layout LayoutMem Fits.
Import Prog.
Local Open Scope N_scope.

Local Arguments Prog.bind : simpl never.
Local Arguments Prog.ret : simpl never.
Local Arguments Prog.alloc : simpl never.
Local Arguments tidy : simpl never.
Lemma int_lo_small k : int_lo k < 2 ^ 32.
Proof. unfold int_lo. pose proof (Z.mod_pos_bound k (2 ^ 32) ltac:(done)). apply N2Z.inj_lt. rewrite Z2N.id by lia. apply H. Qed.
Lemma int_hi_small k : int_hi k < 2 ^ 32.
Proof. unfold int_hi. pose proof (Z.mod_pos_bound (Z.shiftr k 32) (2 ^ 32) ltac:(done)). apply N2Z.inj_lt. rewrite Z2N.id by lia. apply H. Qed.

Section fams.
Variables (p : platform) (sum64 : N -> bytes -> N).
Context {V U : Type}.
Lemma kv_fam_tidy {K HS} (F : PAmt.fam K HS V K U) : PAmt.f_key F = PFam.kv_key -> PAmt.f_leaf F = PFam.kv_leaf -> PAmt.f_pair F = PFam.kv_pair ->
  PAmt.f_new F = PFam.kv_new -> fam_tidy p F.
Proof.
  intros E1 E2 E3 E4. split; rewrite ?E1, ?E2, ?E3, ?E4.
  - intros x Hx. unfold PFam.kv_key. b1; [apply t_load_kv|]. by apply t_ret.
  - intros k q Hq. by split.
  - intros k q x Hq Hx. by apply with_ptr_ok.
  - intros v k. unfold PFam.kv_new. b1; [by apply t_alloc|]. by apply t_ret.
Qed.
Lemma string_tidy : fam_tidy p (PFam.string_fam (V:=V) (U:=U) sum64).
Proof. by apply kv_fam_tidy. Qed.
Lemma bytes_tidy : fam_tidy p (PFam.bytes_fam (V:=V) (U:=U) sum64).
Proof. by apply kv_fam_tidy. Qed.
Lemma arr_tidy {K} keq KB : fam_tidy p (PFam.arr_fam (K:=K) (V:=V) (U:=U) sum64 keq KB).
Proof. by apply kv_fam_tidy. Qed.
Lemma gen_tidy {K} eq H : fam_tidy p (PFam.gen_fam (K:=K) (V:=V) (U:=U) eq H).
Proof. by apply kv_fam_tidy. Qed.
Lemma gen_mod_tidy {K} eq H : fam_tidy p (PFam.gen_mod_fam (K:=K) (V:=V) (U:=U) eq H).
Proof. by apply kv_fam_tidy. Qed.
Lemma int_leaf_ok k q : fits_ptr p q -> fits_link p (Link q (int_lo k) (int_hi k)).
Proof. intros Hq. split; [done|]. split; [apply int_lo_small|apply int_hi_small]. Qed.
Lemma int_tidy : fam_tidy p (PFam.int_fam (V:=V) (U:=U) sum64).
Proof.
  split; simpl.
  - intros x Hx. by apply t_ret.
  - intros k q Hq. by apply int_leaf_ok.
  - intros k q x Hq _. by apply int_leaf_ok.
  - intros v k. unfold PFam.int_new. b1; [by apply t_alloc|]. by apply t_ret.
Qed.
Lemma intset_tidy : fam_tidy p (PFam.intset_fam (V:=V) (U:=U) sum64).
Proof.
  split; simpl.
  - intros x Hx. by apply t_ret.
  - intros k q Hq. by apply int_leaf_ok.
  - intros k q x Hq _. by apply int_leaf_ok.
  - intros v k. apply t_ret. apply fits_nil.
Qed.
End fams.

Section calls.
Variable p : platform.
Context {K V CK U : Type}.
Local Notation ti Q q := (tidy (V:=V) (CK:=CK) (U:=U) p None Q q).
Record mapi_tidy (a : pmapapi K V CK U) : Prop := MapiTidy {
  mt_Set : ∀ h k v, ti any (pm_Set a h k v);
  mt_Mod : ∀ h k f, (∀ q b, ti any (f q b)) -> ti any (pm_Mod a h k f);
  mt_Del : ∀ h k, ti any (pm_Del a h k);
  mt_Get : ∀ h k, ti any (pm_Get a h k);
  mt_Val : ∀ h k, ti any (pm_Val a h k);
  mt_Ptr : ∀ h k, ti any (pm_Ptr a h k);
  mt_All : ∀ h f, (∀ k q, ti any (f k q)) -> ti any (pm_All a h f) }.
Record sapi_tidy (a : psetapi K V CK U) : Prop := SapiTidy {
  st_Add : ∀ h k, ti any (ps_Add a h k);
  st_Del : ∀ h k, ti any (ps_Del a h k);
  st_Has : ∀ h k, ti any (ps_Has a h k);
  st_All : ∀ h f, (∀ k, ti any (f k)) -> ti any (ps_All a h f) }.

Lemma t_mod_cb f q b : ti any (pmod_cb (V:=V) (CK:=CK) (U:=U) f q b).
Proof. unfold pmod_cb. b1; [apply t_load_kv|]. b1; [apply t_get_usr|]. b1; [apply t_store_val|]. apply t_put_usr. Qed.
Lemma t_all_cb f k q : ti any (pall_cb (K:=K) (V:=V) (CK:=CK) (U:=U) f k q).
Proof. unfold pall_cb. b1; [apply t_load_kv|]. b1; [apply t_get_usr|]. b1; [apply t_store_val|]. b1; [apply t_put_usr|]. by apply t_ret. Qed.
Lemma t_set_cb f k : ti any (pset_cb (K:=K) (V:=V) (CK:=CK) (U:=U) f k).
Proof. unfold pset_cb. b1; [apply t_get_usr|]. b1; [apply t_put_usr|]. by apply t_ret. Qed.
Lemma t_New s : ti any (PFam.New s).
Proof. unfold PFam.New. b1; [apply t_new_root|]. by apply t_ret. Qed.
Lemma t_phandle h : ti any (phandle h).
Proof. by destruct h. Qed.
Lemma t_Len h : ti any (PFam.Len h).
Proof. destruct h; [|done]. unfold PFam.Len, PAmt.root_len. b1; [apply t_load_root|]. by apply t_ret. Qed.
Lemma t_Dep h : ti any (PFam.Dep h).
Proof. destruct h; [|done]. unfold PFam.Dep, PAmt.root_dep. b1; [apply t_load_root|]. destruct (_ =? _); by apply t_ret. Qed.
Lemma t_mcall papi op : mapi_tidy papi -> ti any (pmcall papi (Op op)).
Proof.
  intros [H1 H2 H3 H4 H5 H6 H7]. destruct op; cbn [pmcall].
  - b1; [apply t_New|]. b1; [apply t_phandle|]. by apply t_ret.
  - b1; [apply H1|]. by apply t_ret.
  - b1; [apply H2, t_mod_cb|]. by apply t_ret.
  - b1; [apply H3|]. by apply t_ret.
  - b1; [apply H4|]. by apply t_ret.
  - b1; [apply H5|]. by apply t_ret.
  - b1; [apply H6|]. by apply t_ret.
  - b1; [apply t_Len|]. by apply t_ret.
  - b1; [apply t_Dep|]. by apply t_ret.
  - b1; [apply H7, t_all_cb|]. by apply t_ret.
  - b1; [apply t_load_kv|]. by apply t_ret.
  - b1; [apply t_store_val|]. by apply t_ret.
Qed.
Lemma t_scall papi op : sapi_tidy papi -> ti any (pscall papi op).
Proof.
  intros [H1 H2 H3 H4]. destruct op; cbn [pscall].
  - b1; [apply t_New|]. b1; [apply t_phandle|]. by apply t_ret.
  - b1; [apply H1|]. by apply t_ret.
  - b1; [apply H2|]. by apply t_ret.
  - b1; [apply H3|]. by apply t_ret.
  - b1; [apply t_Len|]. by apply t_ret.
  - b1; [apply t_Dep|]. by apply t_ret.
  - b1; [apply H4, t_set_cb|]. by apply t_ret.
Qed.
End calls.

Section types.
Variable p : platform.
Lemma with_check_tidy {V CK U} (o : PAmt.insop V CK U) : op_tidy p o -> op_tidy p (PAmt.with_check o).
Proof. intros [H1 H2 H3]. by split. Qed.
Lemma with_split_tidy {V CK U} (o : PAmt.insop V CK U) s : op_tidy p o -> tidy p None (fits_ptr p) s -> op_tidy p (PAmt.with_split o s).
Proof. intros [H1 H2 H3] Hs. by split. Qed.
Ltac fa := first [apply string_tidy|apply bytes_tidy|apply arr_tidy|apply gen_tidy|apply gen_mod_tidy|apply int_tidy|apply intset_tidy].
Ltac oa := repeat first [apply with_check_tidy|apply with_split_tidy|apply set_op_tidy; fa|apply add_op_tidy; fa|apply mod_op_tidy; [fa|done]|intros; apply ft_new; fa].
Lemma pmap_type_tidy {K V CK U} (zero : V) fuel (papi : pmapapi K V CK U) api : pmap_type zero fuel papi api -> mapi_tidy p papi.
Proof.
  destruct 1; (split; intros; [apply t_insert; [fa|oa]|apply t_insert; [fa|oa]|apply t_delete_gen; fa|
    apply t_get; fa|apply t_val; fa|apply t_ptr_of; fa|apply t_all_map; [fa|done]]).
Qed.
Lemma pset_type_tidy {K CK U} fuel (papi : psetapi K unit CK U) api : pset_type fuel papi api -> sapi_tidy p papi.
Proof.
  destruct 1; (split; intros; [apply t_insert; [fa|oa]|apply t_delete_gen; fa|apply t_has; fa|apply t_all_set; [fa|done]]).
Qed.
End types.

(** ** Steps *)
Section steps.
Variables (p : platform) (kvsize : N).
Context {V CK U : Type}.
Implicit Types (B : bytemem) (T : gmap loc (tblock V CK)).

Record sane B T : Prop := Sane {
  sn_bytes : good_bytes B;
  sn_placed : placed p kvsize T;
  sn_fits : ∀ l t, T !! l = Some t -> fits_t t }.
Lemma sane_start B : good_bytes B -> sane B ∅.
Proof. intros HB. split; [done|apply placed_empty|]. intros l t. by rewrite lookup_empty. Qed.
Lemma sane_write B T l b : sane B T -> placed p kvsize (<[l := typed b]> T) -> fits p b -> sane (write_block p B l b) (<[l := typed b]> T).
Proof.
  intros [H1 H2 H3] HT Hb. split; [by apply write_good|done|]. intros l' t. destruct (decide (l' = l)) as [->|Hne].
  - rewrite lookup_insert. intros [= <-]. by eapply fits_typed.
  - rewrite lookup_insert_ne by done. apply H3.
Qed.
Lemma sane_view B T l b : sane B T -> view p B T !! l = Some b -> fits p b.
Proof.
  intros [H1 _ H3]. rewrite view_lookup. destruct (T !! l) as [t|] eqn:E; [|done]. cbn. intros [= <-]. apply read_fits; [done|by eapply H3].
Qed.
Lemma typed_read B l (t : tblock V CK) : typed (read_block p B l t) = t.
Proof. destruct t; simpl; [|done|done]. by rewrite map_length, seq_length. Qed.

(** The program goes on in a tidy way, and a write that comes next finds its block. *)
Definition ready {A} T (q : prog V CK U A) : Prop :=
  (∃ last, tidy p last any q) /\
  match q with PWrite l b _ => ∃ t, T !! l = Some t /\ like t (typed b) | _ => True end.
Lemma ready_none {A} T (q : prog V CK U A) : tidy p None any q -> ready T q.
Proof. intros H. split; [by exists None|]. destruct q; try done. destruct H as (_ & (t & E & _) & _). done. Qed.

Lemma bstep {A} (as_ : names -> A -> A -> Prop) R q B T (u : U) q' B' T' u' : bmoves p kvsize as_ R (q, B, T, u) (q', B', T', u') ->
  sane B T -> ready T q -> moves as_ R (q, view p B T, u) (q', view p B' T', u') /\ sane B' T' /\ ready T' q'.
Proof.
  intros Hm Hs [[last Ht] Hw]. inversion Hm; subst; clear Hm;
    try match goal with H : _ !! _ = Some _ |- _ => rename H into HL | H : _ !! _ = None |- _ => rename H into HL end.
  - split; [|split; [done|]].
    + constructor. rewrite view_lookup. by rewrite HL.
    + specialize (Ht (read_block p B' l t) (read_fits p B' l t (sn_bytes _ _ Hs) (sn_fits _ _ Hs _ _ HL))). rewrite typed_read in Ht.
      split; [by eexists|]. destruct (k _); try done. destruct Ht as (_ & (t' & [= -> <-] & Hl) & _). by exists t.
  - destruct Ht as (Hb & _ & Ht). assert (HT : placed p kvsize (<[l := typed b]> T)) by (eapply placed_like; [apply Hs|done|done]). split; [|split].
    + rewrite (view_write p kvsize) by done. eapply mv_write. rewrite view_lookup, HL. done.
    + by apply sane_write.
    + by apply ready_none.
  - destruct Ht as (Hb & Ht). split; [|split].
    + rewrite (view_write p kvsize) by done. constructor. by rewrite view_lookup, HL.
    + by apply sane_write.
    + apply ready_none. apply Ht. match goal with H : placed _ _ (<[l := _]> _) |- _ => destruct H as [HT _] end. exact (proj1 (HT _ _ (lookup_insert _ _ _))).
  - split; [constructor|split; [done|]]. apply ready_none. apply Ht.
  - split; [constructor|split; [done|]]. apply ready_none. apply Ht.
  - match goal with H : has_only _ _ _ |- _ => rename H into Ho end. match goal with H : collected _ _ _ |- _ => rename H into Hc end.
    match goal with H : T' ⊆ T |- _ => rename H into Hsub end. split; [|split].
    + by eapply mv_collect.
    + destruct Hs as [H1 H2 H3]. split; [done|by eapply placed_sub|]. intros l t Hl. eapply H3. by eapply lookup_weaken.
    + split; [by exists last|]. destruct q' as [| | | | |l b k| | |]; try done. destruct Hw as (t & Hl & Hk). exists t. split; [|done].
      unfold has_only in Ho. inversion Ho; subst. destruct Hc as [_ Hc].
      assert (HlS : l ∈ S). { match goal with H : self S l l |- _ => apply H end. }
      assert (E : view p B' T' !! l = view p B' T !! l). { apply (Hc l l); [set_solver +HlS|]. apply rtc_refl. }
      rewrite !view_lookup, Hl in E. destruct (T' !! l) as [t'|] eqn:E'; [|done]. rewrite (lookup_weaken _ _ _ _ E' Hsub) in Hl. done.
Qed.
Lemma bsteps {A} (as_ : names -> A -> A -> Prop) R c c' : rtc (bmoves p kvsize as_ R) c c' -> ∀ q B T (u : U) q' B' T' u', c = (q, B, T, u) -> c' = (q', B', T', u') ->
  sane B T -> ready T q -> rtc (moves as_ R) (q, view p B T, u) (q', view p B' T', u') /\ sane B' T' /\ ready (A:=A) T' q'.
Proof.
  induction 1 as [c|c1 c2 c3 Hstep Hrtc IH]; intros q B T u q' B' T' u' -> E Hs Hr.
  - simplify_eq. done.
  - destruct c2 as [[[q2 B2] T2] u2]. destruct (bstep _ _ _ _ _ _ _ _ _ _ Hstep Hs Hr) as (H1 & H2 & H3).
    destruct (IH _ _ _ _ _ _ _ _ eq_refl E H2 H3) as (H4 & H5). split; [|done]. by econstructor.
Qed.

(** If the call can still come to its end, its next access finds its block. *)
Definition goes_on {A} T (q : prog V CK U A) : Prop :=
  match q with
  | PRet _ | PAlloc _ _ | PGet _ | PPut _ _ => True
  | PRead l _ => is_Some (T !! l)
  | PWrite l b _ => ∃ t, T !! l = Some t /\ like t (typed b)
  | PPanic | PFault | PHang => False
  end.
Lemma ends_goes_on {A} (as_ : names -> A -> A -> Prop) R c c' : rtc (moves as_ R) c c' -> ∀ q m (u : U) a m' u', c = (q, m, u) -> c' = (PRet a, m', u') ->
  match q with
  | PRet _ | PAlloc _ _ | PGet _ | PPut _ _ => True
  | PRead l _ | PWrite l _ _ => is_Some ((m : gmap loc (block V CK)) !! l)
  | PPanic | PFault | PHang => False
  end.
Proof.
  induction 1 as [c|c1 c2 c3 Hstep Hrtc IH]; intros q m u a m' u' -> E; [by simplify_eq|].
  inversion Hstep; subst; try done.
  specialize (IH _ _ _ _ _ _ eq_refl eq_refl). match goal with H : collected _ _ _ |- _ => destruct H as [Hsub _] end.
  destruct q; try done; destruct IH as [b0 Hb]; exists b0; by eapply lookup_weaken.
Qed.
Lemma bgoes_on {A} (as_ : names -> A -> A -> Prop) R q B T (u : U) a m' u' : ready T q -> rtc (moves as_ R) (q, view p B T, u) (PRet a, m', u') -> goes_on (A:=A) T q.
Proof.
  intros [_ Hw] Hr. pose proof (ends_goes_on _ _ _ _ Hr _ _ _ _ _ _ eq_refl eq_refl) as H. destruct q; try done. simpl.
  rewrite view_lookup in H. destruct (T !! l) as [t|]; [by exists t|]. by destruct H.
Qed.
(** And with a block there is such a step. *)
Lemma goes_step {A} (as_ : names -> A -> A -> Prop) R (q : prog V CK U A) B T (u : U) : goes_on T q ->
  (∃ a, q = PRet a) \/ (∃ b k, q = PAlloc b k) \/ ∃ q' B' T' u', bmoves p kvsize as_ R (q, B, T, u) (q', B', T', u') /\ dom T' = dom T.
Proof.
  intros H. destruct q as [a| | | |l k|l b k|b k|k|u' k]; try done.
  - left. by exists a.
  - destruct H as [t Ht]. right. right. eexists _, _, _, _. split; [by econstructor|done].
  - destruct H as (t & Ht & Hl). right. right. eexists _, _, _, _. split; [by econstructor|]. rewrite dom_insert_L. apply elem_of_dom_2 in Ht. set_solver.
  - right. left. by exists b, k.
  - right. right. eexists _, _, _, _. split; [by econstructor|done].
  - right. right. eexists _, _, _, _. split; [by econstructor|done].
Qed.
End steps.

(** ** Runs *)
Lemma bwild_wild {K V CK U} p kvsize (zero : V) fuel (papi : pmapapi K V CK U) api (u0 : U) tr R B T u : pmap_type zero fuel papi api ->
  bwild p kvsize papi u0 tr R B T u -> sane p kvsize B T /\ wild papi u0 tr R (view p B T) u.
Proof.
  intros Ht. induction 1 as [B HB|tr R B T u op res B' T' u' _ [Hs Hw] Ho Hmv|tr R R' B T u _ [Hs Hw] Hsub].
  - split; [by apply sane_start|]. unfold view. rewrite map_imap_empty. constructor.
  - destruct (bsteps p kvsize _ _ _ _ Hmv _ _ _ _ _ _ _ _ eq_refl eq_refl Hs) as (H1 & H2 & _).
    { apply ready_none, t_mcall. by eapply pmap_type_tidy. }
    split; [done|]. by econstructor.
  - split; [done|]. by econstructor.
Qed.
Lemma bswild_swild {K CK U} p kvsize fuel (papi : psetapi K unit CK U) api (u0 : U) tr R B T u : pset_type fuel papi api ->
  bswild p kvsize papi u0 tr R B T u -> sane p kvsize B T /\ swild papi u0 tr R (view p B T) u.
Proof.
  intros Ht. induction 1 as [B HB|tr R B T u op res B' T' u' _ [Hs Hw] Ho Hmv|tr R R' B T u _ [Hs Hw] Hsub].
  - split; [by apply sane_start|]. unfold view. rewrite map_imap_empty. constructor.
  - destruct (bsteps p kvsize _ _ _ _ Hmv _ _ _ _ _ _ _ _ eq_refl eq_refl Hs) as (H1 & H2 & _).
    { apply ready_none, t_scall. by eapply pset_type_tidy. }
    split; [done|]. by econstructor.
  - split; [done|]. by econstructor.
Qed.
