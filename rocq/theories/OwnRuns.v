(** What containers keep alive was made by calls on them. *)
From stdpp Require Import base numbers list gmap relations.
From Verif Require Import GoInt Mem Hash Amt Families BitsFacts Steps Tree Rep Paths Descend Insert Split Delete Remove Core Order Heap Spec SpecFacts Guards Client Types Refine RefineSet Instances Pack Levels Shape Observe ObserveFacts ShapeRuns KeepSpec Keep KeepRuns Own.
Local Open Scope nat_scope.

(** ** The calls *)
Section calls.
Context {V CK U : Type}.
Variable X : loc -> Prop.
Implicit Types (ph : Prop).

Lemma kv_key_hyg {K} ph iv : hyg X ph (λ _, True) (kv_key (K:=K) (V:=V) (U:=U) iv).
Proof. unfold kv_key. hy. Qed.
Lemma int_key_hyg ph iv : hyg X ph (λ _, True) (int_key (V:=V) (U:=U) iv).
Proof. unfold int_key. hy. Qed.
Lemma kv_new_hyg {K} ph v k : hyg X ph (okp X) (kv_new (K:=K) (V:=V) (U:=U) v k).
Proof. unfold kv_new. eapply hyg_bind; [by apply hyg_alloc|]. intros. hy. Qed.
Lemma int_new_hyg ph v k : hyg X ph (okp X) (int_new (V:=V) (U:=U) v k).
Proof. unfold int_new. eapply hyg_bind; [by apply hyg_alloc|]. intros. hy. Qed.
Lemma intset_new_hyg ph v k : hyg X ph (okp X) (intset_new (V:=V) (U:=U) v k).
Proof. unfold intset_new. hy. Qed.
Lemma mod_cb_hyg ph f p b : hyg X ph (λ _, True) (mod_cb (V:=V) (CK:=CK) (U:=U) f p b).
Proof. unfold mod_cb. hy. Qed.
Lemma all_cb_hyg {K} ph f k p : hyg X ph (λ _, True) (all_cb (K:=K) (V:=V) (CK:=CK) (U:=U) f k p).
Proof. unfold all_cb. hy. Qed.
Lemma set_cb_hyg {K} ph f k : hyg X ph (λ _, True) (set_cb (K:=K) (V:=V) (CK:=CK) (U:=U) f k).
Proof. unfold set_cb. hy. Qed.
Lemma Len_hyg ph h : (ph -> X h) -> hyg X ph (λ _, True) (Len (V:=V) (CK:=CK) (U:=U) (Some h)).
Proof. intros Hh. unfold Len, root_len. hy. Qed.
Lemma Dep_hyg ph h : (ph -> X h) -> hyg X ph (λ _, True) (Dep (V:=V) (CK:=CK) (U:=U) (Some h)).
Proof. intros Hh. unfold Dep, root_dep. eapply hyg_bind; [by apply hyg_load_root|]. intros rt. destruct (_ =? _)%N; hy. Qed.
Lemma mod_new_hyg {K HS} (F : fam K HS V CK U) ph zero k f : (∀ ph v k, hyg X ph (okp X) (f_new F v k)) ->
  hyg X ph (okp X) (mod_new F zero k (mod_cb f)).
Proof.
  intros Hn. unfold mod_new. eapply hyg_bind; [apply Hn|]. intros p. eapply hyg_bind; [apply mod_cb_hyg|]. intros. hy.
Qed.
Lemma mod_found_hyg {K HS} (F : fam K HS V CK U) ph zero k f iv : hyg X ph (λ _, True) (io_found (mod_op F zero k (mod_cb f)) iv).
Proof. simpl. destruct (lk_ptr iv); [hy|apply mod_cb_hyg]. Qed.
End calls.

(** The block that a call is about: the container, or the struct of a pointer. *)
Definition mabout {K V U} (op : mop K V U) : option loc :=
  match op with
  | MNew _ => None
  | MSet h _ _ | MMod h _ _ | MDel h _ | MGet h _ | MVal h _ | MPtr h _ | MLen h | MDep h | MAll h _ => Some h
  | MLoad p | MStore p _ => Some p
  end.
Definition sabout {K U} (op : sop K U) : option loc :=
  match op with
  | SNew _ => None
  | SAdd h _ | SDel h _ | SHas h _ | SLen h | SDep h | SAll h _ => Some h
  end.

Section mcall.
Context {V U : Type} (zero : V) (fuel : nat) {K CK : Type} (api : mapapi K V CK U).
Hypothesis Ha : any_map zero fuel api.
Lemma mcall_hyg X op h : mabout op = Some h -> hyg X (X h) (λ _, True) (mcall api op).
Proof.
  assert (Hleaf1 : ∀ (k : CK) p, okp X p -> okl X (kv_leaf k p)) by done.
  destruct op as [s|h' k v|h' k f|h' k|h' k|h' k|h' k|h'|h'|h' f|p|p v]; intros E; try discriminate E; injection E as ->; cbn [mcall];
    (eapply (hyg_bind _ _ (λ _, True)); [|intros; hy]).
  - destruct Ha; apply hyg_insert; try done; simpl; intros;
      first [apply kv_key_hyg|apply int_key_hyg|apply kv_new_hyg|apply int_new_hyg|apply hyg_store_val].
  - destruct Ha; apply hyg_insert; try done; intros;
      first [apply kv_key_hyg|apply int_key_hyg|apply mod_found_hyg|apply mod_new_hyg; intros; first [apply kv_new_hyg|apply int_new_hyg]].
  - destruct Ha; apply hyg_delete_gen; try done; first [apply kv_key_hyg|apply int_key_hyg].
  - destruct Ha; apply hyg_get; try done; first [apply kv_key_hyg|apply int_key_hyg].
  - destruct Ha; apply hyg_val; try done; first [apply kv_key_hyg|apply int_key_hyg].
  - eapply (hyg_weak _ _ (X h) _ (okp X)); [done|done|]. destruct Ha; apply hyg_ptr; try done; first [apply kv_key_hyg|apply int_key_hyg].
  - by apply Len_hyg.
  - by apply Dep_hyg.
  - destruct Ha; apply hyg_all_map; try done; first [apply kv_key_hyg|apply int_key_hyg|intros; apply all_cb_hyg].
  - apply hyg_load_kv.
  - apply hyg_store_val.
Qed.
(** The block exists. *)
Lemma mcall_about op h w x w' : mabout op = Some h -> mcall api op w = Ret x w' -> is_Some (w_mem w !! h).
Proof.
  assert (Hroot : ∀ r x w', load_root (V:=V) (CK:=CK) (U:=U) r w = Ret x w' -> is_Some (w_mem w !! r)).
  { intros r y w1 E. unfold load_root in E. destruct (w_mem w !! r); [eauto|discriminate E]. }
  destruct op as [s|h' k v|h' k f|h' k|h' k|h' k|h' k|h'|h'|h' f|p|p v]; intros E; try discriminate E; injection E as ->; cbn [mcall];
    intros E; apply bind_inv_Ret in E as (y & w1 & E & _).
  - destruct Ha; apply bind_inv_Ret in E as (rt & w2 & E & _); by apply Hroot in E.
  - destruct Ha; apply bind_inv_Ret in E as (rt & w2 & E & _); by apply Hroot in E.
  - destruct Ha; apply bind_inv_Ret in E as (rt & w2 & E & _); by apply Hroot in E.
  - destruct Ha; do 3 (apply bind_inv_Ret in E as (? & ? & E & _)); by apply Hroot in E.
  - destruct Ha; do 3 (apply bind_inv_Ret in E as (? & ? & E & _)); by apply Hroot in E.
  - destruct Ha; do 2 (apply bind_inv_Ret in E as (? & ? & E & _)); by apply Hroot in E.
  - apply bind_inv_Ret in E as (rt & w2 & E & _); by apply Hroot in E.
  - apply bind_inv_Ret in E as (rt & w2 & E & _); by apply Hroot in E.
  - assert (Hs : ∀ act y w1, scan (V:=V) (CK:=CK) (U:=U) act fuel (RootRef h) w = Ret y w1 -> is_Some (w_mem w !! h)).
    { intros act z w2 Es. destruct fuel as [|n]; [discriminate Es|]. cbn [scan] in Es.
      apply bind_inv_Ret in Es as (lv & w3 & Es & _). unfold load_link in Es. destruct (w_mem w !! h); [eauto|discriminate Es]. }
    destruct Ha; apply bind_inv_Ret in E as (b & w2 & E & _); by apply Hs in E.
  - unfold load_kv in E. destruct (w_mem w !! h); [eauto|discriminate E].
  - unfold store_val in E. destruct (w_mem w !! h); [eauto|discriminate E].
Qed.
End mcall.

Section scall.
Context {U : Type} (fuel : nat) (bt : bool) {K CK : Type} (api : setapi K unit CK U).
Hypothesis Ha : any_set fuel bt api.
Lemma scall_hyg X op h : sabout op = Some h -> hyg X (X h) (λ _, True) (scall api op).
Proof.
  destruct op as [s|h' k|h' k|h' k|h'|h'|h' f]; intros E; try discriminate E; injection E as ->; cbn [scall];
    (eapply (hyg_bind _ _ (λ _, True)); [|intros; hy]).
  - destruct Ha; apply hyg_insert; try done; simpl; intros;
      first [apply kv_key_hyg|apply int_key_hyg|apply kv_new_hyg|apply intset_new_hyg|apply hyg_ret; done].
  - destruct Ha; apply hyg_delete_gen; try done; first [apply kv_key_hyg|apply int_key_hyg].
  - destruct Ha; apply hyg_has; try done; first [apply kv_key_hyg|apply int_key_hyg].
  - by apply Len_hyg.
  - by apply Dep_hyg.
  - destruct Ha; apply hyg_all_set; try done; first [apply kv_key_hyg|apply int_key_hyg|intros; apply set_cb_hyg].
Qed.
Lemma scall_about op h w x w' : sabout op = Some h -> scall api op w = Ret x w' -> is_Some (w_mem w !! h).
Proof.
  assert (Hroot : ∀ r x w', load_root (V:=unit) (CK:=CK) (U:=U) r w = Ret x w' -> is_Some (w_mem w !! r)).
  { intros r y w1 E. unfold load_root in E. destruct (w_mem w !! r); [eauto|discriminate E]. }
  destruct op as [s|h' k|h' k|h' k|h'|h'|h' f]; intros E; try discriminate E; injection E as ->; cbn [scall];
    intros E; apply bind_inv_Ret in E as (y & w1 & E & _).
  - destruct Ha; apply bind_inv_Ret in E as (rt & w2 & E & _); by apply Hroot in E.
  - destruct Ha; apply bind_inv_Ret in E as (rt & w2 & E & _); by apply Hroot in E.
  - destruct Ha; do 2 (apply bind_inv_Ret in E as (? & ? & E & _)); by apply Hroot in E.
  - apply bind_inv_Ret in E as (rt & w2 & E & _); by apply Hroot in E.
  - apply bind_inv_Ret in E as (rt & w2 & E & _); by apply Hroot in E.
  - assert (Hs : ∀ act y w1, scan (V:=unit) (CK:=CK) (U:=U) act fuel (RootRef h) w = Ret y w1 -> is_Some (w_mem w !! h)).
    { intros act z w2 Es. destruct fuel as [|n]; [discriminate Es|]. cbn [scan] in Es.
      apply bind_inv_Ret in Es as (lv & w3 & Es & _). unfold load_link in Es. destruct (w_mem w !! h); [eauto|discriminate Es]. }
    destruct Ha; apply bind_inv_Ret in E as (b & w2 & E & _); by apply Hs in E.
Qed.
End scall.

(** ** The owner of each block *)
Section owner.
Context {V CK U : Type}.
Implicit Types (w : world V CK U) (o : loc -> loc).

Definition owned o w : Prop :=
  (∀ l b, w_mem w !! l = Some b -> (l < w_nxt w)%positive) /\
  (∀ a b, points (w_mem w) a b -> o b = o a /\ (b < w_nxt w)%positive) /\
  (∀ h rt, w_mem w !! h = Some (BRoot rt) -> o h = h).

Lemma points_in (m : gmap loc (block V CK)) a b : points m a b -> is_Some (m !! a).
Proof. unfold points. destruct (m !! a); [eauto|done]. Qed.
Lemma okb_points X (m : gmap loc (block V CK)) a b : m !! a = Some b -> okb X b <-> ∀ c, points m a c -> X c.
Proof.
  intros Ha. unfold points. rewrite Ha. destruct b as [ls|v k|rt]; simpl.
  - rewrite Forall_lookup. split.
    + intros H c (i & x & Hi & Hc). by eapply (H i x).
    + intros H i x Hi c Hc. apply H. by exists i, x.
  - done.
  - unfold okroot. rewrite Forall_lookup. split.
    + intros [H1 H2] c [Hc|(i & y & Hi & Hc)]; [by apply H1|]. specialize (H2 i y Hi).
      destruct Hc as [Hc|[j Hc]]; by specialize (H2 _ Hc).
    + intros H. split.
      * intros c Hc. apply H. by left.
      * intros i y Hi l Hl. destruct l as [r|a0 j|]; simpl; [| |done]; apply H; right; exists i, y; (split; [done|]); [by left|right; by exists j].
Qed.

Lemma owned_ext o o' w : owned o w -> (∀ l, (l < w_nxt w)%positive -> o' l = o l) -> owned o' w.
Proof.
  intros (H1 & H2 & H3) He. split_and!; [done| |].
  - intros a b Hab. destruct (H2 _ _ Hab) as [E Hb]. split; [|done]. destruct (points_in _ _ _ Hab) as [c Hc].
    rewrite !He; [done| |done]. by eapply H1.
  - intros h rt Hh. rewrite He by (by eapply H1). by eapply H3.
Qed.
Lemma owned_keeps o w h b : owned o w -> keeps (w_mem w) h b -> o b = o h.
Proof.
  intros (_ & H2 & _) Hk. induction Hk as [|h c b Hp Hk IH]; [done|]. rewrite IH. by apply H2.
Qed.

Lemma owned_step {A} (m : M V CK U A) o w h x w' : (∀ X, hyg X (X h) (λ _, True) m) -> owned o w -> is_Some (w_mem w !! h) ->
  m w = Ret x w' -> ∃ o', owned o' w' /\ (w_nxt w <= w_nxt w')%positive /\ ∀ l, (l < w_nxt w)%positive -> o' l = o l.
Proof.
  intros Hm (H1 & H2 & H3) [bh Hh] E.
  set (o' := λ l, if decide (l < w_nxt w)%positive then o l else o h).
  assert (Ho : ∀ l, (l < w_nxt w)%positive -> o' l = o l) by (intros l Hl; unfold o'; by rewrite decide_True).
  assert (Hn : ∀ l, (w_nxt w <= l)%positive -> o' l = o h) by (intros l Hl; unfold o'; rewrite decide_False by lia; done).
  set (X := λ l, o' l = o h /\ (l < w_nxt w')%positive).
  destruct (Hm X w x w' E) as (N & Dm & R & Hc). pose proof (H1 _ _ Hh) as Hlt.
  destruct Hc as (C & _ & Fr).
  { split; [by apply Ho|lia]. }
  { intros l Hl. split; [apply Hn; lia|lia]. }
  { intros a b [Ea Ha] Hb. apply (okb_points X (w_mem w) a b Hb). intros c Hac. pose proof (H1 _ _ Hb) as Hla. destruct (H2 _ _ Hac) as [Ec Hlc].
    split; [|lia]. rewrite Ho by done. rewrite Ho in Ea by done. congruence. }
  exists o'. split_and!; [|done|done].
  assert (Hd : ∀ l b, w_mem w' !! l = Some b -> (l < w_nxt w')%positive).
  { intros l b Hl. apply Dm in Hl as [[b' Hl]|Hl]; [apply H1 in Hl|]; lia. }
  split_and!; [done| |].
  - intros a b Hab. destruct (points_in _ _ _ Hab) as [ba Hba]. pose proof (Hd _ _ Hba) as Hla.
    destruct (decide (o' a = o h)) as [Ea|Ea].
    + assert (Xa : X a) by done. pose proof (proj1 (okb_points X _ _ _ Hba) (C _ _ Xa Hba) _ Hab) as [Xb ?]. split; [congruence|done].
    + assert (Hab' : points (w_mem w) a b) by (apply Fr; [intros [? _]; done|done]).
      destruct (H2 _ _ Hab') as [E1 E2]. destruct (points_in _ _ _ Hab') as [ba' Hba']. rewrite !Ho; [split; [done|lia]|by eapply H1|done].
  - intros l rt Hl. apply R in Hl as [rt' Hl]. rewrite Ho by (by eapply H1). by eapply H3.
Qed.

Lemma owned_new o w s r w' : owned o w -> New s w = Ret r w' ->
  ∃ o', owned o' w' /\ (w_nxt w <= w_nxt w')%positive /\ (∀ l, (l < w_nxt w)%positive -> o' l = o l) /\
    ∃ h rt, r = Some h /\ w_mem w' !! h = Some (BRoot rt).
Proof.
  intros (H1 & H2 & H3) E. unfold New, new_root, alloc, bind, ret in E. cbn [w_nxt w_mem w_usr] in E. injection E as <- <-.
  set (n := w_nxt w) in *. exists (λ l, if decide (l < n)%positive then o l else n~0%positive).
  assert (Hm : ∀ l b, w_mem w !! l = Some b -> l ≠ n /\ l ≠ n~0%positive) by (intros l b Hl; apply H1 in Hl; fold n in Hl; lia).
  cbn [w_mem w_nxt]. split_and!.
  - split_and!; cbn [w_mem w_nxt].
    + intros l b. destruct (decide (l = n~0%positive)) as [->|N1]; [lia|]. rewrite lookup_insert_ne by done.
      destruct (decide (l = n)) as [->|N2]; [lia|]. rewrite lookup_insert_ne by done. intros Hl. apply H1 in Hl. fold n in Hl. lia.
    + intros a b Hab. unfold points in Hab. destruct (decide (a = n~0%positive)) as [->|N1].
      * rewrite lookup_insert in Hab. cbn [rt_link lk_ptr rt_path] in Hab. destruct Hab as [Hab|(i & y & Hi & Hy)].
        -- injection Hab as <-. rewrite !decide_False by lia. split; [done|lia].
        -- change (replicate 12 (PLink 0 None) !! i = Some y) in Hi. apply lookup_replicate in Hi as [-> _]. destruct Hy as [Hy|[j Hy]]; discriminate Hy.
      * rewrite lookup_insert_ne in Hab by done. destruct (decide (a = n)) as [->|N2].
        -- rewrite lookup_insert in Hab. destruct Hab as (i & y & Hi & Hy). change (replicate 16 zero_link !! i = Some y) in Hi. apply lookup_replicate in Hi as [-> _]. discriminate Hy.
        -- rewrite lookup_insert_ne in Hab by done. destruct (H2 a b Hab) as [E1 E2]. fold n in E2.
           destruct (points_in _ _ _ Hab) as [c Hc]. apply H1 in Hc. fold n in Hc. rewrite !decide_True by done. split; [done|lia].
    + intros l rt. destruct (decide (l = n~0%positive)) as [->|N1]; [by rewrite decide_False by lia|]. rewrite lookup_insert_ne by done.
      destruct (decide (l = n)) as [->|N2]; [rewrite lookup_insert; discriminate|]. rewrite lookup_insert_ne by done.
      intros Hl. pose proof (H1 _ _ Hl) as Hlt. fold n in Hlt. rewrite decide_True by done. by eapply H3.
  - lia.
  - intros l Hl. by rewrite decide_True.
  - eexists _, _. split; [done|]. by rewrite lookup_insert.
Qed.
Lemma owned_empty u o : owned o (empty_world u).
Proof.
  split_and!; simpl.
  - intros l b Hl. by rewrite lookup_empty in Hl.
  - intros a b Hab. unfold points in Hab. by rewrite lookup_empty in Hab.
  - intros l b Hl. by rewrite lookup_empty in Hl.
Qed.
End owner.

(** ** Runs of maps *)
Section run.
Context {V U : Type} (zero : V) (fuel : nat) {K CK : Type} (api : mapapi K V CK U).
Hypothesis Ha : any_map zero fuel api.
Variable ok : list (mop K V U * mres V) -> mop K V U -> Prop.
Variable u0 : U.
Implicit Types (w : world V CK U) (tr : list (mop K V U * mres V)).

Lemma mrun_det tr w : mrun api ok u0 tr w -> ∀ w', mrun api ok u0 tr w' -> w' = w.
Proof.
  induction 1 as [|tr w op res w1 Hr IH Ho Hc]; intros w' Hr'.
  - by inversion Hr'.
  - inversion Hr' as [|tr' w2 op' res' w3 Hr2 Ho2 Hc2]; subst. rewrite (IH _ Hr2) in Hc2. rewrite Hc in Hc2. by injection Hc2 as <-.
Qed.
Lemma mrun_before tr2 tr1 w : mrun api ok u0 (tr2 ++ tr1) w -> ∃ w1, mrun api ok u0 tr1 w1.
Proof.
  revert w. induction tr2 as [|x tr2 IH]; intros w Hr; [by exists w|]. inversion Hr; subst. eauto.
Qed.

Lemma mcall_owned op o w res w' : owned o w -> mcall api op w = Ret res w' ->
  ∃ o', owned o' w' /\ (w_nxt w <= w_nxt w')%positive /\ ∀ l, (l < w_nxt w)%positive -> o' l = o l.
Proof.
  intros Ho Hc. destruct (mabout op) as [h|] eqn:E.
  - eapply (owned_step (mcall api op) o w h); [|done| |done].
    + intros X. by apply (mcall_hyg zero fuel api Ha).
    + by eapply (mcall_about zero fuel api Ha).
  - destruct op as [s| | | | | | | | | | |]; try discriminate E. cbn [mcall] in Hc. apply bind_inv_Ret in Hc as (r & w1 & Hn & Hc).
    destruct (owned_new _ _ _ _ _ Ho Hn) as (o' & H1 & H2 & H3 & h & rt & -> & Hh). cbn [handle] in Hc.
    injection Hc as _ <-. by exists o'.
Qed.

Lemma mrun_owned tr w : mrun api ok u0 tr w -> ∃ o, ∀ tr2 tr1 w1, tr = tr2 ++ tr1 -> mrun api ok u0 tr1 w1 ->
  owned o w1 /\ (w_nxt w1 <= w_nxt w)%positive.
Proof.
  induction 1 as [|tr w op res w' Hr IH Ho Hc].
  - exists (λ l, l). intros tr2 tr1 w1 E Hr. symmetry in E. apply app_eq_nil in E as [-> ->]. inversion Hr; subst. split; [apply owned_empty|lia].
  - destruct IH as [o IH]. destruct (IH [] tr w eq_refl Hr) as [How _].
    destruct (mcall_owned op o w res w' How Hc) as (o' & H1 & H2 & H3). exists o'. intros tr2 tr1 w1 E Hr1.
    destruct tr2 as [|x tr2].
    + simpl in E. subst tr1. assert (w1 = w') as -> by (eapply mrun_det; [|exact Hr1]; by econstructor). split; [done|lia].
    + injection E as <- E. destruct (IH _ _ _ E Hr1) as [Hw1 Hle]. split; [|lia]. eapply owned_ext; [done|]. intros l Hl. apply H3. lia.
Qed.

Lemma mrun_handle o tr w s h : mrun api ok u0 tr w ->
  (∀ tr2 tr1 w1, tr = tr2 ++ tr1 -> mrun api ok u0 tr1 w1 -> owned o w1 /\ (w_nxt w1 <= w_nxt w)%positive) ->
  (MNew s, RHandle h) ∈ tr -> o h = h.
Proof.
  intros Hr Ho Hin. apply elem_of_list_split in Hin as (tr2 & tr1 & E).
  destruct (mrun_before tr2 ((MNew s, RHandle h) :: tr1) w) as [w1 Hr1]; [by rewrite <- E|].
  destruct (Ho _ _ _ E Hr1) as [(_ & _ & Hroot) _]. inversion Hr1 as [|tr' w2 op' res' w3 Hr2 Ho2 Hc]; subst.
  cbn [mcall] in Hc. apply bind_inv_Ret in Hc as (r & w4 & Hn & Hc). pose proof Hn as Hn'.
  unfold New, new_root, alloc, bind, ret in Hn. cbn [w_nxt w_mem w_usr] in Hn. injection Hn as <- <-. cbn [handle] in Hc.
  injection Hc as <- <-. eapply Hroot. cbn [w_mem]. by rewrite lookup_insert.
Qed.

(** Different maps keep different blocks. *)
Theorem maps_apart tr w s s' h h' b : mrun api ok u0 tr w -> (MNew s, RHandle h) ∈ tr -> (MNew s', RHandle h') ∈ tr ->
  keeps (w_mem w) h b -> keeps (w_mem w) h' b -> h = h'.
Proof.
  intros Hr H1 H2 K1 K2. destruct (mrun_owned tr w Hr) as [o Ho].
  pose proof (mrun_handle o tr w s h Hr Ho H1) as E1. pose proof (mrun_handle o tr w s' h' Hr Ho H2) as E2.
  destruct (Ho [] tr w eq_refl Hr) as [How _]. apply (owned_keeps o) in K1; [|done]. apply (owned_keeps o) in K2; [|done]. congruence.
Qed.
End run.

(** ** Runs of sets *)
Section srun.
Context {U : Type} (fuel : nat) (bt : bool) {K CK : Type} (api : setapi K unit CK U).
Hypothesis Ha : any_set fuel bt api.
Variable ok : list (sop K U * sres) -> sop K U -> Prop.
Variable u0 : U.
Implicit Types (w : world unit CK U) (tr : list (sop K U * sres)).

Lemma srun_det tr w : srun api ok u0 tr w -> ∀ w', srun api ok u0 tr w' -> w' = w.
Proof.
  induction 1 as [|tr w op res w1 Hr IH Ho Hc]; intros w' Hr'.
  - by inversion Hr'.
  - inversion Hr' as [|tr' w2 op' res' w3 Hr2 Ho2 Hc2]; subst. rewrite (IH _ Hr2) in Hc2. rewrite Hc in Hc2. by injection Hc2 as <-.
Qed.
Lemma srun_before tr2 tr1 w : srun api ok u0 (tr2 ++ tr1) w -> ∃ w1, srun api ok u0 tr1 w1.
Proof.
  revert w. induction tr2 as [|x tr2 IH]; intros w Hr; [by exists w|]. inversion Hr; subst. eauto.
Qed.
Lemma scall_owned op o w res w' : owned o w -> scall api op w = Ret res w' ->
  ∃ o', owned o' w' /\ (w_nxt w <= w_nxt w')%positive /\ ∀ l, (l < w_nxt w)%positive -> o' l = o l.
Proof.
  intros Ho Hc. destruct (sabout op) as [h|] eqn:E.
  - eapply (owned_step (scall api op) o w h); [|done| |done].
    + intros X. by apply (scall_hyg fuel bt api Ha).
    + by eapply (scall_about fuel bt api Ha).
  - destruct op as [s| | | | | |]; try discriminate E. cbn [scall] in Hc. apply bind_inv_Ret in Hc as (r & w1 & Hn & Hc).
    destruct (owned_new _ _ _ _ _ Ho Hn) as (o' & H1 & H2 & H3 & h & rt & -> & Hh). cbn [handle] in Hc.
    injection Hc as _ <-. by exists o'.
Qed.
Lemma srun_owned tr w : srun api ok u0 tr w -> ∃ o, ∀ tr2 tr1 w1, tr = tr2 ++ tr1 -> srun api ok u0 tr1 w1 ->
  owned o w1 /\ (w_nxt w1 <= w_nxt w)%positive.
Proof.
  induction 1 as [|tr w op res w' Hr IH Ho Hc].
  - exists (λ l, l). intros tr2 tr1 w1 E Hr. symmetry in E. apply app_eq_nil in E as [-> ->]. inversion Hr; subst. split; [apply owned_empty|lia].
  - destruct IH as [o IH]. destruct (IH [] tr w eq_refl Hr) as [How _].
    destruct (scall_owned op o w res w' How Hc) as (o' & H1 & H2 & H3). exists o'. intros tr2 tr1 w1 E Hr1.
    destruct tr2 as [|x tr2].
    + simpl in E. subst tr1. assert (w1 = w') as -> by (eapply srun_det; [|exact Hr1]; by econstructor). split; [done|lia].
    + injection E as <- E. destruct (IH _ _ _ E Hr1) as [Hw1 Hle]. split; [|lia]. eapply owned_ext; [done|]. intros l Hl. apply H3. lia.
Qed.
Lemma srun_handle o tr w s h : srun api ok u0 tr w ->
  (∀ tr2 tr1 w1, tr = tr2 ++ tr1 -> srun api ok u0 tr1 w1 -> owned o w1 /\ (w_nxt w1 <= w_nxt w)%positive) ->
  (SNew s, THandle h) ∈ tr -> o h = h.
Proof.
  intros Hr Ho Hin. apply elem_of_list_split in Hin as (tr2 & tr1 & E).
  destruct (srun_before tr2 ((SNew s, THandle h) :: tr1) w) as [w1 Hr1]; [by rewrite <- E|].
  destruct (Ho _ _ _ E Hr1) as [(_ & _ & Hroot) _]. inversion Hr1 as [|tr' w2 op' res' w3 Hr2 Ho2 Hc]; subst.
  cbn [scall] in Hc. apply bind_inv_Ret in Hc as (r & w4 & Hn & Hc).
  unfold New, new_root, alloc, bind, ret in Hn. cbn [w_nxt w_mem w_usr] in Hn. injection Hn as <- <-. cbn [handle] in Hc.
  injection Hc as <- <-. eapply Hroot. cbn [w_mem]. by rewrite lookup_insert.
Qed.
Theorem sets_apart tr w s s' h h' b : srun api ok u0 tr w -> (SNew s, THandle h) ∈ tr -> (SNew s', THandle h') ∈ tr ->
  keeps (w_mem w) h b -> keeps (w_mem w) h' b -> h = h'.
Proof.
  intros Hr H1 H2 K1 K2. destruct (srun_owned tr w Hr) as [o Ho].
  pose proof (srun_handle o tr w s h Hr Ho H1) as E1. pose proof (srun_handle o tr w s' h' Hr Ho H2) as E2.
  destruct (Ho [] tr w eq_refl Hr) as [How _]. apply (owned_keeps o) in K1; [|done]. apply (owned_keeps o) in K2; [|done]. congruence.
Qed.
End srun.

(** ** The structs that a map keeps *)
Section structs.
Context {V U : Type} (zero : V) (fuel : nat) (u0 : U).
Hypothesis Hfuel : 256 <= fuel.
Context `{Countable K} {CK : Type} (api : mapapi K V CK U) (dig : N -> K -> nat -> N).
Variable ok : list (mop K V U * mres V) -> mop K V U -> Prop.
Hypothesis Ht : map_type zero fuel api dig ok.
Implicit Types (tr : list (mop K V U * mres V)) (w : world V CK U) (h : loc) (k : K).

(** Each struct in memory was once that of a key, and is as long as its map is not
    the argument of a Del. *)
Definition born tr w p : Prop := ∃ tr2 tr1 w1 h k w0, tr = tr2 ++ tr1 /\ mrun api ok u0 tr1 w1 /\
  (∃ s, (MNew s, RHandle h) ∈ tr1) /\
  mcall api (MPtr h k) w1 = Ret (RPtr (Some p)) w0 /\ keeps (w_mem w1) h p /\
  ((∀ k r, (MDel h k, r) ∉ tr) -> k ∈ stored tr h /\ ∃ w0, mcall api (MPtr h k) w = Ret (RPtr (Some p)) w0).

Lemma mrun_born tr w p v ck : mrun api ok u0 tr w -> w_mem w !! p = Some (BKv v ck) -> born tr w p.
Proof.
  intros Hr Hp. destruct (map_pack zero fuel api dig ok Ht) as [].
  assert (Hptr : ∀ tr w σ h s m k p, mspec dig zero u0 tr σ -> Refine.Rel F L Q w σ -> ms_map σ !! h = Some (s, m) -> m !! k = Some p ->
    mcall api (MPtr h k) w = Ret (RPtr (Some p)) w /\ keeps (w_mem w) h p /\ k ∈ stored tr h /\ (MNew s, RHandle h) ∈ tr).
  { clear tr w p v ck Hr Hp. intros tr w σ h s m k p Hs HR Hm Hk.
    destruct (Refine.Rel_handle F L Q w σ h HR ltac:(eauto)) as (G & s' & T & HI & HGh & HQ & HG & Hm' & Hmh & Hv & Hu).
    rewrite Hm in Hmh. injection Hmh as <- ->.
    pose proof (proj1 (Refine.dict_some F L Hcell _ _ _ _ _ _ HG) Hk) as Hl.
    destruct (Good_ok _ _ _ _ _ _ _ _ _ HG Hl) as [Hkok _]. split_and!.
    - cbn [mcall]. rewrite HPtr. rewrite (bind_Ret _ _ _ _ _ (Refine.ptr_spec F L Q HF HL Hcell fuel Hfuel _ _ _ _ _ _ HI HGh Hkok)).
      rewrite Hk. done.
    - destruct HG as [[(rt & Hrt & _ & Hrep & _) _ _ _] _].
      destruct (rep_keeps L (w_mem w) T k (At p) p (fo_ptr _ _ HF _ _) 0 (rt_link rt) Hrep Hl) as (c & Hc & Hkc).
      apply rtc_l with c; [|exact Hkc]. unfold points. rewrite Hrt. by left.
    - apply elem_of_elements. rewrite (stored_keys dig zero u0 tr σ h s _ Hs Hm). apply elem_of_list_fmap. exists (k, p). split; [done|].
      by apply elem_of_map_to_list.
    - by eapply (mspec_seed dig zero u0 tr σ Hs). }
  set (bornS := λ tr (σ : mstate K V U), ∀ p, is_Some (ms_val σ !! p) -> ∃ tr2 tr1 w1 σ1 h s m k, tr = tr2 ++ tr1 /\ mrun api ok u0 tr1 w1 /\
    mspec dig zero u0 tr1 σ1 /\ Refine.Rel F L Q w1 σ1 /\ ms_map σ1 !! h = Some (s, m) /\ m !! k = Some p /\
    ((∀ k r, (MDel h k, r) ∉ tr) -> ∃ m', ms_map σ !! h = Some (s, m') /\ m' !! k = Some p)).
  assert (Hall : ∃ σ, mspec dig zero u0 tr σ /\ Refine.Rel F L Q w σ /\ bornS tr σ).
  { clear Hp. induction Hr as [|tr w op res w' Hr IH Ho Hc].
    - exists (minit u0). split_and!; [constructor|apply Refine.Rel_init|]. intros q [x Hx]. simpl in Hx. by rewrite lookup_empty in Hx.
    - destruct IH as (σ & Hs & HR & Hb).
      destruct (Refine.rel_step F L Q HF HL Hcell zero fuel Hfuel dig Hdig FS FM sop mdop vs WS WM HFS HFM HWS HWM Hvs Hsop Hmop
        api HSet HMod HDel HGet HVal HPtr HAll ok u0 Hok tr w σ op Hs HR Ho) as (res' & w'' & σ' & Hc' & Hst & HR' & _).
      rewrite Hc in Hc'. injection Hc' as <- <-. exists σ'.
      assert (Hs' : mspec dig zero u0 ((op, res) :: tr) σ') by (by econstructor).
      assert (Hr' : mrun api ok u0 ((op, res) :: tr) w') by (by econstructor). split_and!; [done|done|].
      assert (Hold : ∀ q, is_Some (ms_val σ !! q) ->
        (∀ h s m k, ms_map σ !! h = Some (s, m) -> m !! k = Some q -> (∀ k r, (MDel h k, r) ∉ (op, res) :: tr) ->
          ∃ m', ms_map σ' !! h = Some (s, m') /\ m' !! k = Some q) ->
        ∃ tr2 tr1 w1 σ1 h s m k, (op, res) :: tr = tr2 ++ tr1 /\ mrun api ok u0 tr1 w1 /\
          mspec dig zero u0 tr1 σ1 /\ Refine.Rel F L Q w1 σ1 /\ ms_map σ1 !! h = Some (s, m) /\ m !! k = Some q /\
          ((∀ k r, (MDel h k, r) ∉ (op, res) :: tr) -> ∃ m', ms_map σ' !! h = Some (s, m') /\ m' !! k = Some q)).
      { intros q Hq Hkeep. destruct (Hb q Hq) as (tr2 & tr1 & w1 & σ1 & h & s & m & k & -> & H1 & H2 & H3 & H4 & H5 & H6).
        exists ((op, res) :: tr2), tr1, w1, σ1, h, s, m, k. split_and!; try done. intros Hnd.
        destruct H6 as (m' & Hm' & Hk'); [|by eapply Hkeep]. intros k' r' Hin. apply (Hnd k' r'). by right. }
      assert (Hput : ∀ h k x u, put σ h k x u σ' -> bornS ((op, res) :: tr) σ').
      { intros h k x u (s & m & Hm & Hpt) q Hq. destruct (m !! k) as [p'|] eqn:Ek.
        - subst σ'. simpl in Hq. apply Hold; [|intros; simpl; eauto]. destruct (decide (q = p')) as [->|Hne].
          + destruct HR as [G HRG]. pose proof HRG as (HI & HmG & Hvv & _).
            destruct (Refine.RelG_handle F L Q G w σ h HRG ltac:(eauto)) as (s' & T & _ & HGh & HQ & HG & _ & Hmh & _).
            rewrite Hm in Hmh. injection Hmh as <- ->. destruct (Refine.entry_block F L Hcell _ _ _ _ _ _ HG Ek) as (y & _ & Hy).
            rewrite Hvv. eauto.
          + by rewrite lookup_insert_ne in Hq by done.
        - destruct Hpt as (p' & Hfr & ->). simpl in Hq. destruct (decide (q = p')) as [->|Hne].
          + exists [], ((op, res) :: tr), w', (MState (<[h:=(s, <[k:=p']> m)]> (ms_map σ)) (<[p':=x]> (ms_val σ)) u), h, s, (<[k:=p']> m), k.
            split_and!; try done; [simpl; by rewrite lookup_insert|by rewrite lookup_insert|].
            intros _. simpl. rewrite lookup_insert. exists (<[k:=p']> m). by rewrite lookup_insert.
          + rewrite lookup_insert_ne in Hq by done. apply Hold; [done|]. intros h1 s1 m1 k1 Hm1 Hk1 _. simpl.
            destruct (decide (h1 = h)) as [->|Hnh]; [|rewrite lookup_insert_ne by done; eauto].
            rewrite Hm in Hm1. injection Hm1 as <- <-. rewrite lookup_insert. exists (<[k:=p']> m). split; [done|].
            rewrite lookup_insert_ne; [done|]. intros <-. congruence. }
      destruct op as [s|h k x|h k f|h k|h k|h k|h k|h|h|h f|q0|q0 x]; cbn [mstep] in Hst.
      + destruct Hst as (h & _ & Hn & ->). intros q Hq. apply Hold; [done|]. intros h1 s1 m1 k1 Hm1 Hk1 _. simpl.
        rewrite lookup_insert_ne by congruence. eauto.
      + destruct Hst as [_ Hst]. by eapply Hput.
      + destruct Hst as [_ Hst]. destruct (f _ _ _) as [u1 v1]. by eapply Hput.
      + destruct Hst as (_ & s & m & Hm & ->). intros q Hq. apply Hold; [done|]. intros h1 s1 m1 k1 Hm1 Hk1 Hnd. simpl.
        destruct (decide (h1 = h)) as [->|Hnh]; [|rewrite lookup_insert_ne by done; eauto]. exfalso. apply (Hnd k res). by left.
      + destruct Hst as [-> _]. intros q Hq. apply Hold; eauto.
      + destruct Hst as [-> _]. intros q Hq. apply Hold; eauto.
      + destruct Hst as [-> _]. intros q Hq. apply Hold; eauto.
      + destruct Hst as [-> _]. intros q Hq. apply Hold; eauto.
      + destruct Hst as [-> _]. intros q Hq. apply Hold; eauto.
      + destruct Hst as (_ & s & m & es & Hm & _ & _ & ->). intros q Hq. simpl in Hq. apply Hold; [|simpl; eauto].
        clear -Hq. revert Hq. generalize (ms_val σ) as vals. generalize (ms_usr σ) as u. induction es as [|[k p] es IH]; intros u vals; [done|].
        cbn [each]. destruct (vals !! p) as [x|] eqn:Ex; [|done]. destruct (f u k x) as [[u1 v1] []]; simpl.
        * intros Hq. apply IH in Hq. destruct (decide (q = p)) as [->|Hne]; [eauto|]. by rewrite lookup_insert_ne in Hq.
        * destruct (decide (q = p)) as [->|Hne]; [eauto|]. by rewrite lookup_insert_ne.
      + destruct Hst as [-> _]. intros q Hq. apply Hold; eauto.
      + destruct Hst as (_ & Hq0 & ->). intros q Hq. simpl in Hq. apply Hold; [|simpl; eauto].
        destruct (decide (q = q0)) as [->|Hne]; [done|]. by rewrite lookup_insert_ne in Hq. }
  destruct Hall as (σ & Hs & HR & Hb). destruct (Hb p) as (tr2 & tr1 & w1 & σ1 & h & s & m & k & -> & H1 & H2 & H3 & H4 & H5 & H6).
  { destruct HR as [G (_ & _ & Hvv & _)]. rewrite Hvv, vals_lookup, Hp. eauto. }
  destruct (Hptr _ _ _ _ _ _ _ _ H2 H3 H4 H5) as (E1 & E2 & _ & E3).
  exists tr2, tr1, w1, h, k, w1. split_and!; try done; [by exists s|]. intros Hnd. destruct (H6 Hnd) as (m' & Hm' & Hk').
  destruct (Hptr _ _ _ _ _ _ _ _ Hs HR Hm' Hk') as (E4 & _ & E5 & _). split; [done|]. by exists w.
Qed.

(** What a map keeps alive was stored in it. *)
Theorem kept_was_stored tr w s h b v ck : mrun api ok u0 tr w -> (MNew s, RHandle h) ∈ tr ->
  keeps (w_mem w) h b -> w_mem w !! b = Some (BKv v ck) ->
  ∃ tr2 tr1 w1 k w0, tr = tr2 ++ tr1 /\ mrun api ok u0 tr1 w1 /\ mcall api (MPtr h k) w1 = Ret (RPtr (Some b)) w0 /\
    ((∀ k r, (MDel h k, r) ∉ tr) -> k ∈ stored tr h /\ ∃ w0, mcall api (MPtr h k) w = Ret (RPtr (Some b)) w0).
Proof.
  intros Hr Hin Hk Hb. destruct (mrun_born tr w b v ck Hr Hb) as (tr2 & tr1 & w1 & h' & k & w0 & E & Hr1 & [s' Hin'] & Hp & Hk' & Hnd).
  pose proof (map_any zero fuel api dig ok Ht) as Hany.
  destruct (mrun_owned zero fuel api Hany ok u0 tr w Hr) as [o Ho].
  pose proof (mrun_handle api ok u0 o tr w s h Hr Ho Hin) as E1.
  pose proof (mrun_handle api ok u0 o tr w s' h' Hr Ho) as E2.
  destruct (Ho [] tr w eq_refl Hr) as [How _]. destruct (Ho _ _ _ E Hr1) as [How1 _].
  apply (owned_keeps o) in Hk; [|done]. apply (owned_keeps o) in Hk'; [|done].
  assert (h' = h) as ->.
  { rewrite E2 in Hk'; [congruence|]. rewrite E. apply elem_of_app. by right. }
  exists tr2, tr1, w1, k, w0. done.
Qed.
End structs.
