(** Calls with an allocator that uses memory again and a collector that runs at any
    moment. *)
From stdpp Require Import base numbers list gmap relations.
From Verif Require Import GoInt Mem Hash Prog Spec PAmt PFam ProgSim Amt Families Client Types PClient KeepSpec GcSpec Gc ConcClient ConcMapAll ReuseSpec Reuse ReuseProg.
Import Prog.
Local Open Scope nat_scope.
Implicit Types (β : names).

(** ** The calls *)
Section fams.
Variable sum64 : N -> bytes -> N.
Context {V U : Type}.
Lemma kv_fam_as {K HS} (F : PAmt.fam K HS V K U) : PAmt.f_key F = PFam.kv_key -> PAmt.f_leaf F = PFam.kv_leaf -> PAmt.f_pair F = PFam.kv_pair ->
  PAmt.f_new F = PFam.kv_new -> fam_as F.
Proof.
  intros E1 E2 E3 E4. split; rewrite ?E1, ?E2, ?E3, ?E4.
  - intros β x y (Hp & _). unfold PFam.kv_key. eapply as_bind; [by apply as_load_kv|]. intros β' a a' _ ->. apply as_eqret.
  - intros β k p q Hp. by apply link_as_intro.
  - intros β k p q x y Hp Hx. by apply with_ptr_as.
  - intros β v k. unfold PFam.kv_new. eapply as_bind; [by apply as_Alloc|]. intros β' a a' _ Ha. by apply as_Ret.
Qed.
Lemma string_as : fam_as (PFam.string_fam (V:=V) (U:=U) sum64).
Proof. by apply kv_fam_as. Qed.
Lemma bytes_as : fam_as (PFam.bytes_fam (V:=V) (U:=U) sum64).
Proof. by apply kv_fam_as. Qed.
Lemma arr_as {K} keq KB : fam_as (PFam.arr_fam (K:=K) (V:=V) (U:=U) sum64 keq KB).
Proof. by apply kv_fam_as. Qed.
Lemma gen_as {K} eq H : fam_as (PFam.gen_fam (K:=K) (V:=V) (U:=U) eq H).
Proof. by apply kv_fam_as. Qed.
Lemma gen_mod_as {K} eq H : fam_as (PFam.gen_mod_fam (K:=K) (V:=V) (U:=U) eq H).
Proof. by apply kv_fam_as. Qed.
Lemma int_as : fam_as (PFam.int_fam (V:=V) (U:=U) sum64).
Proof.
  split; simpl.
  - intros β x y (_ & E1 & E2). unfold PFam.int_key. rewrite E1, E2. apply as_eqret.
  - intros β k p q Hp. by apply link_as_intro.
  - intros β k p q x y Hp _. by apply link_as_intro.
  - intros β v k. unfold PFam.int_new. eapply as_bind; [by apply as_Alloc|]. intros β' a a' _ Ha. by apply as_Ret.
Qed.
Lemma intset_as : fam_as (PFam.intset_fam (V:=V) (U:=U) sum64).
Proof.
  split; simpl.
  - intros β x y (_ & E1 & E2). unfold PFam.int_key. rewrite E1, E2. apply as_eqret.
  - intros β k p q Hp. by apply link_as_intro.
  - intros β k p q x y Hp _. by apply link_as_intro.
  - intros β v k. unfold PFam.intset_new. by apply as_Ret.
Qed.
End fams.

Section calls.
Context {K V CK U : Type}.
Local Notation pas as_ β p q := (prog_as (V:=V) (CK:=CK) (U:=U) as_ β p q).
Record mapi_as (p : pmapapi K V CK U) : Prop := MapiAs {
  mas_Set : ∀ β r r' k v, β r r' -> pas eq_as β (pm_Set p (Some r) k v) (pm_Set p (Some r') k v);
  mas_Mod : ∀ β r r' k f, β r r' -> (∀ β p q b, ptr_as β p q -> pas eq_as β (f p b) (f q b)) ->
    pas eq_as β (pm_Mod p (Some r) k f) (pm_Mod p (Some r') k f);
  mas_Del : ∀ β r r' k, β r r' -> pas eq_as β (pm_Del p (Some r) k) (pm_Del p (Some r') k);
  mas_Get : ∀ β r r' k, β r r' -> pas eq_as β (pm_Get p (Some r) k) (pm_Get p (Some r') k);
  mas_Val : ∀ β r r' k, β r r' -> pas eq_as β (pm_Val p (Some r) k) (pm_Val p (Some r') k);
  mas_Ptr : ∀ β r r' k, β r r' -> pas ptr_as β (pm_Ptr p (Some r) k) (pm_Ptr p (Some r') k);
  mas_All : ∀ β r r' f, β r r' -> (∀ β k p q, ptr_as β p q -> pas eq_as β (f k p) (f k q)) ->
    pas eq_as β (pm_All p (Some r) f) (pm_All p (Some r') f) }.
Record sapi_as (p : psetapi K V CK U) : Prop := SapiAs {
  sas_Add : ∀ β r r' k, β r r' -> pas eq_as β (ps_Add p (Some r) k) (ps_Add p (Some r') k);
  sas_Del : ∀ β r r' k, β r r' -> pas eq_as β (ps_Del p (Some r) k) (ps_Del p (Some r') k);
  sas_Has : ∀ β r r' k, β r r' -> pas eq_as β (ps_Has p (Some r) k) (ps_Has p (Some r') k);
  sas_All : ∀ β r r' f, β r r' -> (∀ β k, pas eq_as β (f k) (f k)) -> pas eq_as β (ps_All p (Some r) f) (ps_All p (Some r') f) }.

Lemma as_mod_cb f β p q b : ptr_as β p q -> pas eq_as β (pmod_cb (V:=V) (CK:=CK) (U:=U) f p b) (pmod_cb f q b).
Proof. intros Hp. unfold pmod_cb. bd; [by apply as_load_kv|]. bd; [apply as_get_usr|]. bd; [by apply as_store_val|]. fx. apply as_put_usr. Qed.
Lemma as_all_cb f β k p q : ptr_as β p q -> pas eq_as β (pall_cb (K:=K) (V:=V) (CK:=CK) (U:=U) f k p) (pall_cb f k q).
Proof.
  intros Hp. unfold pall_cb. bd; [by apply as_load_kv|]. bd; [apply as_get_usr|]. bd; [by apply as_store_val|]. bd; [apply as_put_usr|]. fx. apply as_eqret.
Qed.
Lemma as_set_cb f β k : pas eq_as β (pset_cb (K:=K) (V:=V) (CK:=CK) (U:=U) f k) (pset_cb f k).
Proof. unfold pset_cb. bd; [apply as_get_usr|]. bd; [apply as_put_usr|]. fx. apply as_eqret. Qed.

Lemma as_New β s : pas (λ β x y, match x, y with Some a, Some b => β a b | _, _ => False end) β (PFam.New s) (PFam.New s).
Proof. unfold PFam.New. bd; [apply as_new_root|]. by apply as_Ret. Qed.
Lemma as_mcall papi op β ρ : mapi_as papi -> (∀ a, takes op = Some a -> β a (ρ a)) ->
  pas res_as β (pmcall papi (Op op)) (pmcall papi (Op (op_by ρ op))).
Proof.
  intros [H1 H2 H3 H4 H5 H6 H7] Ht. destruct op as [s|h k v|h k f|h k|h k|h k|h k|h|h|h f|p|p v];
    cbn [takes op_by pmcall] in *; try (pose proof (Ht _ eq_refl) as Hh); clear Ht.
  - bd; [apply as_New|]. destruct x as [a|], y as [b|]; try done. unfold phandle. bd; [by apply (as_Ret loc_as)|]. by apply as_Ret.
  - bd; [by apply H1|]. by apply as_Ret.
  - bd; [apply H2; [done|intros; by apply as_mod_cb]|]. by apply as_Ret.
  - bd; [by apply H3|]. by apply as_Ret.
  - bd; [by apply H4|]. fx. by apply as_Ret.
  - bd; [by apply H5|]. fx. by apply as_Ret.
  - bd; [by apply H6|]. apply as_Ret. by destruct x, y.
  - bd; [by apply as_root_len|]. fx. by apply as_Ret.
  - bd; [by apply as_root_dep|]. fx. by apply as_Ret.
  - bd; [apply H7; [done|intros; by apply as_all_cb]|]. by apply as_Ret.
  - bd; [by apply as_load_kv|]. fx. by apply as_Ret.
  - bd; [by apply as_store_val|]. by apply as_Ret.
Qed.
Lemma as_scall papi op β ρ : sapi_as papi -> (∀ a, stakes op = Some a -> β a (ρ a)) ->
  pas sres_as β (pscall papi op) (pscall papi (sop_by ρ op)).
Proof.
  intros [H1 H2 H3 H4] Ht. destruct op as [s|h k|h k|h k|h|h|h f];
    cbn [stakes sop_by pscall] in *; try (pose proof (Ht _ eq_refl) as Hh); clear Ht.
  - bd; [apply as_New|]. destruct x as [a|], y as [b|]; try done. unfold phandle. bd; [by apply (as_Ret loc_as)|]. by apply as_Ret.
  - bd; [by apply H1|]. by apply as_Ret.
  - bd; [by apply H2|]. by apply as_Ret.
  - bd; [by apply H3|]. fx. by apply as_Ret.
  - bd; [by apply as_root_len|]. fx. by apply as_Ret.
  - bd; [by apply as_root_dep|]. fx. by apply as_Ret.
  - bd; [apply H4; [done|intros; by apply as_set_cb]|]. by apply as_Ret.
Qed.
End calls.

Section types.
Ltac fa := first [apply string_as|apply bytes_as|apply arr_as|apply gen_as|apply gen_mod_as|apply int_as|apply intset_as].
Ltac oa := repeat first [apply with_check_as|apply with_split_as|apply set_op_as; fa|apply add_op_as; fa|apply mod_op_as; [fa|done]|intros; apply fa_new; fa].
Lemma pmap_type_as {K V CK U} (zero : V) fuel (papi : pmapapi K V CK U) api : pmap_type zero fuel papi api -> mapi_as papi.
Proof.
  destruct 1; (split; intros; [apply as_insert; [fa|oa|done]|apply as_insert; [fa|oa|done]|apply as_delete_gen; [fa|done]|
    apply as_get; [fa|done]|apply as_val; [fa|done]|apply as_ptr_of; [fa|done]|apply as_all_map; [fa|done|done]]).
Qed.
Lemma pset_type_as {K CK U} fuel (papi : psetapi K unit CK U) api : pset_type fuel papi api -> sapi_as papi.
Proof.
  destruct 1; (split; intros; [apply as_insert; [fa|oa|done]|apply as_delete_gen; [fa|done]|apply as_has; [fa|done]|
    apply as_all_set; [fa|done|done]]).
Qed.
End types.

Lemma res_as_grows {V} : grows (res_as (V:=V)).
Proof. intros β β' x y Hm. destruct x as [| | | |[|]| |], y as [| | | |[|]| |]; simpl; auto. Qed.
Lemma res_as_composes {V} : composes (res_as (V:=V)).
Proof.
  intros β1 β2 β x y z Hc. destruct x as [| | | |[|]| |], y as [| | | |[|]| |], z as [| | | |[|]| |]; simpl; try done; try (intros; subst; eauto; fail);
    naive_solver.
Qed.
Lemma sres_as_grows : grows sres_as.
Proof. intros β β' x y Hm. destruct x, y; simpl; auto. Qed.
Lemma sres_as_composes : composes sres_as.
Proof. intros β1 β2 β x y z Hc. destruct x, y, z; simpl; try done; try (intros; subst; eauto; fail); intros; congruence. Qed.

(** ** One memory stands for another *)
Lemma mem_bound {X} (m : gmap loc X) : ∃ n : positive, ∀ a x, m !! a = Some x -> (a < n)%positive.
Proof.
  induction m as [|a x m Ha [n IH]] using map_ind; [by exists 1%positive|].
  exists (Pos.max n (Pos.succ a)). intros b y. destruct (decide (b = a)) as [->|Hne].
  - intros _. lia.
  - rewrite lookup_insert_ne by done. intros Hb. apply IH in Hb. lia.
Qed.

Section machine.
Context {V CK U : Type}.
Local Notation mem := (gmap loc (block V CK)).
Local Notation world := (world V CK U).

(** The names that the allocator of Mem.v has left. *)
Definition stock (w : world) : Prop := ∀ n, w_mem w !! (Nat.iter n xO (w_nxt w)) = None.
Record stands β (m : mem) (w : world) : Prop := Stands {
  st_mem : ∀ a a', β a a' -> ∃ b b', m !! a = Some b /\ w_mem w !! a' = Some b' /\ block_as β b b';
  st_fun : ∀ a a1 a2, β a a1 -> β a a2 -> a1 = a2;
  st_inj : ∀ a1 a2 a, β a1 a -> β a2 a -> a1 = a2;
  st_stock : stock w }.

Lemma stands_bounded β m w : stands β m w -> bounded β.
Proof.
  intros [Hm _ _ _]. destruct (mem_bound m) as [n1 H1], (mem_bound (w_mem w)) as [n2 H2]. exists (n1 + n2)%positive.
  intros a a' Ha. destruct (Hm _ _ Ha) as (b & b' & Hb & Hb' & _). apply H1 in Hb. apply H2 in Hb'. lia.
Qed.
Lemma iter_big n l : (l <= Nat.iter n xO l)%positive.
Proof. induction n as [|n IH]; simpl; lia. Qed.
Lemma iter_shift n l : Nat.iter n xO (xO l) = Nat.iter (S n) xO l.
Proof. induction n as [|n IH]; simpl; [done|]. simpl in IH. by rewrite IH. Qed.

Lemma stands_write β m w a a' b b' : stands β m w -> β a a' -> block_as β b b' ->
  stands β (<[a := b]> m) (set_mem w (<[a' := b']> (w_mem w))).
Proof.
  intros [Hm Hf Hi Hs] Ha Hb. split; try done; simpl.
  - intros c c' Hc. destruct (decide (c = a)) as [->|Hne].
    + assert (c' = a') as -> by (by eapply Hf). exists b, b'. by rewrite !lookup_insert.
    + assert (c' ≠ a') by (intros ->; apply Hne; by eapply Hi). rewrite !lookup_insert_ne by done. by apply Hm.
  - intros n. simpl. destruct (Hm _ _ Ha) as (? & ? & _ & Ha' & _). rewrite lookup_insert_ne; [apply Hs|]. intros ->. by rewrite Hs in Ha'.
Qed.
Definition one (a a' : loc) : names := λ x y, x = a /\ y = a'.
Lemma stands_alloc β m w a b b' : stands β m w -> m !! a = None -> block_as β b b' ->
  stands (both β (one a (w_nxt w))) (<[a := b]> m) (World (<[w_nxt w := b']> (w_mem w)) (xO (w_nxt w)) (w_usr w)).
Proof.
  intros [Hm Hf Hi Hs] Ha Hb.
  assert (H1 : ∀ c, ~ β a c). { intros c Hc. destruct (Hm _ _ Hc) as (? & ? & E & _). by rewrite Ha in E. }
  assert (H2 : ∀ c, ~ β c (w_nxt w)). { intros c Hc. destruct (Hm _ _ Hc) as (? & ? & _ & E & _). pose proof (Hs 0) as E0; simpl in E0. by rewrite E0 in E. }
  assert (Hmore : more β (both β (one a (w_nxt w)))) by (by left).
  split; simpl.
  - intros c c' [Hc|[-> ->]].
    + destruct (Hm _ _ Hc) as (x & x' & E & E' & Hx). exists x, x'.
      rewrite !lookup_insert_ne; [|intros <-; by eapply H2|intros <-; by eapply H1]. split_and!; [done|done|]. by eapply block_as_more.
    + exists b, b'. rewrite !lookup_insert. split_and!; [done|done|]. by eapply block_as_more.
  - intros c c1 c2 [E1|[-> ->]] [E2|[? ->]]; subst; [by eapply Hf|by destruct (H1 _ E1)|by destruct (H1 _ E2)|done].
  - intros c1 c2 c [E1|[-> ->]] [E2|[-> ?]]; subst; [by eapply Hi|by destruct (H2 _ E1)|by destruct (H2 _ E2)|done].
  - intros n. simpl. rewrite iter_shift, lookup_insert_ne; [apply Hs|]. simpl. pose proof (iter_big n (w_nxt w)). lia.
Qed.

(** What a block holds of those which stand for others. *)
Lemma points_as β (m : mem) a b : m !! a = Some b -> ∀ b', block_as β b b' -> block_as (λ x y, β x y /\ points m a x) b b'.
Proof.
  intros Ha b' Hb. unfold points. rewrite Ha. destruct b as [ls|v k|rt], b' as [ls'|v' k'|rt']; simpl in *; try done.
  - apply Forall2_same_length_lookup_2; [by eapply Forall2_length|]. intros i x y Hx Hy.
    pose proof (Forall2_lookup_lr _ _ _ _ _ _ Hb Hx Hy) as (Hp & E1 & E2). split; [|done].
    destruct (lk_ptr x) eqn:E, (lk_ptr y); simpl in *; try done. split; [done|]. by exists i, x.
  - destruct Hb as ((Hp & E1 & E2) & Hs & Hn & Hd & Hpa). unfold root_as. split_and!; try done.
    + split; [|done]. destruct (lk_ptr (rt_link rt)) eqn:E, (lk_ptr (rt_link rt')); simpl in *; try done. split; [done|]. by left.
    + apply Forall2_same_length_lookup_2; [by eapply Forall2_length|]. intros i x y Hx Hy.
      pose proof (Forall2_lookup_lr _ _ _ _ _ _ Hpa Hx Hy) as [Hr Hl]. split; [done|].
      destruct (pl_link x) as [[c|c j|]|] eqn:E, (pl_link y) as [[c'|c' j'|]|]; simpl in *; try done.
      * split; [done|]. right. exists i, x. split; [done|]. by left.
      * destruct Hl as [Hl ->]. split; [|done]. split; [done|]. right. exists i, x. split; [done|]. right. by exists j'.
Qed.
Definition kept (S : gset loc) (m : mem) (β : names) : names := λ a a', β a a' /\ ∃ r, r ∈ S /\ keeps m r a.
Lemma stands_collect β S m m' w : stands β m w -> collected S m m' -> stands (kept S m β) m' w.
Proof.
  intros [Hm Hf Hi Hs] [Hsub Hkeep]. split; try done.
  - intros a a' [Ha (r & Hr & Hk)]. destruct (Hm _ _ Ha) as (b & b' & E & E' & Hb). exists b, b'.
    rewrite (Hkeep r a Hr Hk). split_and!; [done|done|].
    eapply block_as_more; [|by eapply points_as]. intros x y [Hx Hp]. split; [done|]. exists r. split; [done|]. by eapply rtc_r.
  - intros a a1 a2 [H1 _] [H2 _]. by eapply Hf.
  - intros a1 a2 a [H1 _] [H2 _]. by eapply Hi.
Qed.

(** ** A call goes on *)
Section call.
Context {A : Type} (as_ : names -> A -> A -> Prop) (Hg : grows as_) (Hc : composes as_) (R : gset loc).
Local Notation prog := (prog V CK U A).
(** The call and the same one without collections, which ends with o. *)
Record going (ρ : loc -> loc) (o : outcome V CK U A) (c : prog * mem * U) : Prop := Going {
  go_as : ∃ β p0 w, prog_as as_ β c.1.1 p0 /\ stands β c.1.2 w /\ c.2 = w_usr w /\ run p0 w = o /\ ∀ r, r ∈ R -> β r (ρ r) }.

Lemma going_step ρ o c c' : going ρ o c -> moves as_ R c c' -> going ρ o c'.
Proof using Hg Hc.
  intros [(β & p0 & w & Ha & Hs & Hu & Hr & HR)] Hmv. change (id (run p0 w = o)) in Hr.
  destruct Hmv as [l k m u b Hl|l b k m u b0 Hl|b k m u l Hl|k m u|u' k m u|S p m m' u Hhas Hcol]; simpl in Ha, Hs, Hu; constructor.
  - inversion Ha as [| | | |? ? l' ? k' Hl' Hk'|? ? l' ? b' ? k' Hl' Hb' Hk'|? ? b' ? k' Hb' Hk'|? ? k' Hk'|? ? ? k' Hk']; subst; unfold id in Hr; simpl in Hr.
    destruct (st_mem _ _ _ Hs _ _ Hl') as (b1 & b' & E1 & E2 & Hbb). rewrite Hl in E1. injection E1 as <-. rewrite E2 in Hr.
    exists β, (k' b'), w. split_and!; try done. apply Hk'; [apply more_refl|by eapply stands_bounded|done].
  - inversion Ha as [| | | |? ? l' ? k' Hl' Hk'|? ? l' ? b' ? k' Hl' Hb' Hk'|? ? b' ? k' Hb' Hk'|? ? k' Hk'|? ? ? k' Hk']; subst; unfold id in Hr; simpl in Hr.
    destruct (st_mem _ _ _ Hs _ _ Hl') as (b1 & b2 & E1 & E2 & Hbb). rewrite E2 in Hr.
    exists β, k', (set_mem w (<[l' := b']> (w_mem w))). split_and!; [done| |done|exact Hr|done]. by apply stands_write.
  - inversion Ha as [| | | |? ? l' ? k' Hl' Hk'|? ? l' ? b' ? k' Hl' Hb' Hk'|? ? b' ? k' Hb' Hk'|? ? k' Hk'|? ? ? k' Hk']; subst; unfold id in Hr; simpl in Hr.
    pose proof (stands_alloc _ _ _ _ _ _ Hs Hl Hb') as Hs'.
    eexists _, (k' (w_nxt w)), _. split_and!; [|exact Hs'|reflexivity|exact Hr|by left; apply HR].
    apply Hk'; [by left|by eapply stands_bounded|]. by right.
  - inversion Ha as [| | | |? ? l' ? k' Hl' Hk'|? ? l' ? b' ? k' Hl' Hb' Hk'|? ? b' ? k' Hb' Hk'|? ? k' Hk'|? ? ? k' Hk']; subst; unfold id in Hr; simpl in Hr.
    exists β, (k' (w_usr w)), w. split_and!; [apply Hk'|done..].
  - inversion Ha as [| | | |? ? l' ? k' Hl' Hk'|? ? l' ? b' ? k' Hl' Hb' Hk'|? ? b' ? k' Hb' Hk'|? ? k' Hk'|? ? ? k' Hk']; subst; unfold id in Hr; simpl in Hr.
    exists β, k', (World (w_mem w) (w_nxt w) u'). split_and!; [done| |reflexivity|exact Hr|done]. destruct Hs. by split.
  - exists (kept (R ∪ S) m β), p0, w. pose proof (stands_collect _ _ _ _ _ Hs Hcol) as Hs'. split_and!; try done.
    + eapply prog_as_comp; [exact Hc|exact Hhas| | |by eapply stands_bounded| |exact Ha].
      * destruct (mem_bound (gset_to_gmap tt S)) as [n Hn]. exists n. intros a a' [HaS ->].
        assert (a < n)%positive by (apply (Hn a tt); by apply lookup_gset_to_gmap_Some). done.
      * by eapply stands_bounded.
      * intros x y z [HxS ->] Hxz. split; [done|]. exists x. split; [set_solver +HxS|]. apply rtc_refl.
    + intros r Hr'. split; [by apply HR|]. exists r. split; [set_solver +Hr'|]. apply rtc_refl.
Qed.
Lemma going_steps ρ o c c' : going ρ o c -> rtc (moves as_ R) c c' -> going ρ o c'.
Proof using Hg Hc. intros Hgo. induction 1 as [|c1 c2 c3 H1 _ IH]; [done|]. apply IH. by eapply going_step. Qed.

(** It can always come to an end. *)
Lemma going_ends ρ x0 w' p : ∀ m u, going ρ (Ret x0 w') (p, m, u) -> ∃ x m' u', rtc (moves as_ R) (p, m, u) (PRet x, m', u').
Proof using Hg Hc.
  induction p as [a| | | |l k IH|l b k IH|b k IH|k IH|u0 k IH]; intros m u Hgo;
    pose proof Hgo as [(β & p0 & w & Ha & Hs & Hu & Hr & HR)]; simpl in Ha, Hs, Hu;
    try (inversion Ha as [| | | |? ? l' ? k' Hl' Hk'|? ? l' ? b' ? k' Hl' Hb' Hk'|? ? b' ? k' Hb' Hk'|? ? k' Hk'|? ? ? k' Hk']; subst; simpl in Hr; try discriminate).
  - exists a, m, (w_usr w). apply rtc_refl.
  - destruct (st_mem _ _ _ Hs _ _ Hl') as (b1 & b' & E1 & E2 & Hbb).
    assert (Hm : moves as_ R (PRead l k, m, w_usr w) (k b1, m, w_usr w)) by (by constructor).
    destruct (IH b1 m (w_usr w) (going_step _ _ _ _ Hgo Hm)) as (x & m' & u' & Hx). exists x, m', u'. by eapply rtc_l.
  - destruct (st_mem _ _ _ Hs _ _ Hl') as (b1 & b2 & E1 & E2 & Hbb).
    assert (Hm : moves as_ R (PWrite l b k, m, w_usr w) (k, <[l := b]> m, w_usr w)) by (by econstructor).
    destruct (IH _ _ (going_step _ _ _ _ Hgo Hm)) as (x & m' & u' & Hx). exists x, m', u'. by eapply rtc_l.
  - assert (Hm : moves as_ R (PAlloc b k, m, w_usr w) (k (fresh (dom m)), <[fresh (dom m) := b]> m, w_usr w)).
    { constructor. apply not_elem_of_dom, is_fresh. }
    destruct (IH _ _ _ (going_step _ _ _ _ Hgo Hm)) as (x & m' & u' & Hx). exists x, m', u'. by eapply rtc_l.
  - assert (Hm : moves as_ R (PGet k, m, w_usr w) (k (w_usr w), m, w_usr w)) by constructor.
    destruct (IH _ _ _ (going_step _ _ _ _ Hgo Hm)) as (x & m' & u' & Hx). exists x, m', u'. by eapply rtc_l.
  - assert (Hm : moves as_ R (PPut u0 k, m, w_usr w) (k, m, u0)) by constructor.
    destruct (IH _ _ (going_step _ _ _ _ Hgo Hm)) as (x & m' & u' & Hx). exists x, m', u'. by eapply rtc_l.
Qed.
Lemma going_ended ρ o x m u : going ρ o (PRet x, m, u) -> ∃ β x0 w', o = Ret x0 w' /\ as_ β x x0 /\ stands β m w' /\ u = w_usr w' /\ ∀ r, r ∈ R -> β r (ρ r).
Proof.
  intros [(β & p0 & w & Ha & Hs & Hu & Hr & HR)]. simpl in Ha, Hs, Hu. inversion Ha as [? ? x0| | | | | | | |]; subst. by exists β, x0, w.
Qed.
End call.
End machine.

(** ** Runs *)
Lemma stands_empty {V CK U} (u : U) : stands (V:=V) (CK:=CK) (λ _ _, False) ∅ (empty_world u).
Proof. split; done. Qed.

(** Names for one more address. *)
Lemma new_names {V CK U} β (m : gmap loc (block V CK)) (w : world V CK U) (R G : gset loc) ρ x0 :
  stands β m w -> (∀ r, r ∈ R -> β r (ρ r)) -> (∀ a, a ∈ G -> β a (x0 a)) ->
  ∃ ρ', keeps_names R (R ∪ G) ρ ρ' /\ (∀ r, r ∈ R ∪ G -> β r (ρ' r)) /\ ∀ a, a ∈ G -> ρ' a = x0 a.
Proof.
  intros Hs HR HG. exists (λ a, if decide (a ∈ R) then ρ a else x0 a).
  assert (Hall : ∀ r, r ∈ R ∪ G -> β r (if decide (r ∈ R) then ρ r else x0 r)).
  { intros r Hr. destruct (decide (r ∈ R)) as [Hd|Hd]; [by apply HR|]. apply HG. set_solver +Hr Hd. }
  split_and!; [split|done|].
  - intros a Ha. by rewrite decide_True.
  - intros a b Ha Hb He. apply Hall in Ha, Hb. rewrite He in Ha. by eapply (st_inj _ _ _ Hs).
  - intros a Ha. destruct (decide (a ∈ R)) as [Hd|Hd]; [|done]. eapply (st_fun _ _ _ Hs); [by apply HR|by apply HG].
Qed.

Section maps.
Context {K V CK U : Type} (zero : V) (fuel : nat) (papi : pmapapi K V CK U) (api : mapapi K V CK U) (u0 : U).
Context (Ht : pmap_type zero fuel papi api).
Local Notation history := (list (mop K V U * mres V)).

Lemma mcall_going (R : gset loc) β ρ m (w : world V CK U) op o : stands β m w -> (∀ r, r ∈ R -> β r (ρ r)) ->
  (∀ a, takes op = Some a -> a ∈ R) -> mcall api (op_by ρ op) w = o ->
  going res_as R ρ o (pmcall papi (Op op), m, w_usr w).
Proof using Ht.
  intros Hs HR Ho Hc. constructor. exists β, (pmcall papi (Op (op_by ρ op))), w. simpl. split_and!; [|done|done| |done].
  - apply as_mcall; [by eapply pmap_type_as|]. intros a Ha. by apply HR, Ho.
  - rewrite (sim_mcall papi api (Op (op_by ρ op)) (pmap_type_sim _ _ _ _ Ht)). done.
Qed.
Lemma res_names β (res res0 : mres V) : res_as β res res0 -> ∃ x0, (∀ a, a ∈ gives res -> β a (x0 a)) /\
  ∀ ρ', (∀ a, a ∈ gives res -> ρ' a = x0 a) -> res_by ρ' res = res0.
Proof using.
  destruct res as [|h|v b|v|[p|]|n|x], res0 as [|h'|v' b'|v'|[p'|]|n'|x']; simpl; try done.
  - intros _. exists (λ a, a). split; [set_solver +|done].
  - intros Hh. exists (λ _, h'). split; [by intros a ->%elem_of_singleton|]. intros ρ' Hρ. by rewrite Hρ by set_solver +.
  - intros [-> ->]. exists (λ a, a). split; [set_solver +|done].
  - intros ->. exists (λ a, a). split; [set_solver +|done].
  - intros Hh. exists (λ _, p'). split; [by intros a ->%elem_of_singleton|]. intros ρ' Hρ. by rewrite Hρ by set_solver +.
  - intros _. exists (λ a, a). split; [set_solver +|done].
  - intros ->. exists (λ a, a). split; [set_solver +|done].
  - intros ->. exists (λ a, a). split; [set_solver +|done].
Qed.
Lemma res_by_as β ρ (res : mres V) res0 : res_as β res res0 -> res_by ρ res = res0 -> ∀ a, a ∈ gives res -> β a (ρ a).
Proof using.
  intros Hr <- a Ha. destruct res as [|h|v b|v|[p|]|n|x]; simpl in *; try (by set_solver +Ha); by apply elem_of_singleton in Ha as ->.
Qed.

Lemma beside_stands ok tr R m u tr0 ρ w : beside api papi ok u0 tr R m u tr0 ρ w ->
  u = w_usr w /\ ∃ β, stands β m w /\ ∀ r, r ∈ R -> β r (ρ r).
Proof using Ht.
  induction 1 as [ρ|tr R m u tr0 ρ w op res m' u' ρ' w' Hb (Hu & β & Hs & HR) Hok Ho Hmv Hc [Hk _] Hu'|tr R R' m u tr0 ρ w Hb (Hu & β & Hs & HR) Hsub].
  - split; [done|]. exists (λ _ _, False). split; [apply stands_empty|]. set_solver +.
  - split; [done|]. subst u. pose proof (mcall_going R β ρ m w op _ Hs HR Ho Hc) as Hgo.
    apply (going_steps res_as res_as_grows res_as_composes _ _ _ _ _ Hgo) in Hmv.
    apply going_ended in Hmv as (β' & y0 & w1 & [= <- <-] & Hres & Hs' & _ & HR'). exists β'. split; [done|].
    intros r Hr. destruct (decide (r ∈ R)) as [Hd|Hd]; [rewrite Hk by done; by apply HR'|].
    eapply res_by_as; [exact Hres|done|]. set_solver +Hr Hd.
  - split; [done|]. exists β. split; [done|]. intros r Hr. by apply HR, Hsub.
Qed.
Lemma beside_mrun ok tr R m u tr0 ρ w : beside api papi ok u0 tr R m u tr0 ρ w -> mrun api ok u0 tr0 w.
Proof using. induction 1; [constructor|by econstructor|done]. Qed.
Lemma beside_wild ok tr R m u tr0 ρ w : beside api papi ok u0 tr R m u tr0 ρ w -> wild papi u0 tr R m u.
Proof using. induction 1; [constructor|by econstructor|by econstructor]. Qed.

(** The next call. *)
Lemma beside_next ok tr R m u tr0 ρ w op res0 w' : beside api papi ok u0 tr R m u tr0 ρ w ->
  (∀ a, takes op = Some a -> a ∈ R) -> mcall api (op_by ρ op) w = Ret res0 w' ->
  (∀ c, rtc (moves res_as R) (pmcall papi (Op op), m, u) c -> ∃ res m' u', rtc (moves res_as R) c (PRet res, m', u')) /\
  (∀ res m' u', rtc (moves res_as R) (pmcall papi (Op op), m, u) (PRet res, m', u') ->
     u' = w_usr w' /\ ∃ ρ', keeps_names R (R ∪ gives res) ρ ρ' /\ res0 = res_by ρ' res).
Proof using Ht.
  intros Hb Ho Hc. destruct (beside_stands _ _ _ _ _ _ _ _ Hb) as (-> & β & Hs & HR).
  pose proof (mcall_going R β ρ m w op _ Hs HR Ho Hc) as Hgo. split.
  - intros c Hmv. apply (going_steps res_as res_as_grows res_as_composes _ _ _ _ _ Hgo) in Hmv.
    destruct c as [[p m1] u1]. by apply (going_ends res_as res_as_grows res_as_composes) in Hmv.
  - intros res m' u' Hmv. apply (going_steps res_as res_as_grows res_as_composes _ _ _ _ _ Hgo) in Hmv.
    apply going_ended in Hmv as (β' & y0 & w1 & [= <- <-] & Hres & Hs' & Hu & HR'). split; [done|].
    destruct (res_names β' res res0 Hres) as (x0 & Hx1 & Hx2).
    destruct (new_names β' m' w' R (gives res) ρ x0 Hs' HR' Hx1) as (ρ' & Hk & _ & Hρ). exists ρ'. split; [done|]. symmetry. by apply Hx2.
Qed.
(** What happens in a wild run happens in a plain one. *)
Lemma wild_beside tr R m u : wild papi u0 tr R m u -> ∃ tr0 ρ w, beside api papi (λ _ _, True) u0 tr R m u tr0 ρ w.
Proof using Ht.
  induction 1 as [|tr R m u op res m' u' _ (tr0 & ρ & w & Hb) Ho Hmv|tr R R' m u _ (tr0 & ρ & w & Hb) Hsub].
  - eexists _, (λ a, a), _. constructor.
  - destruct (beside_stands _ _ _ _ _ _ _ _ Hb) as (-> & β & Hs & HR).
    pose proof (mcall_going R β ρ m w op _ Hs HR Ho eq_refl) as Hgo.
    pose proof (going_steps res_as res_as_grows res_as_composes _ _ _ _ _ Hgo Hmv) as Hgo'.
    apply going_ended in Hgo' as (_ & res0 & w' & Hc & _).
    destruct (beside_next _ _ _ _ _ _ _ _ _ _ _ Hb Ho Hc) as [_ Hn]. destruct (Hn _ _ _ Hmv) as (Hu & ρ' & Hk & ->).
    eexists _, ρ', w'. by econstructor.
  - exists tr0, ρ, w. by econstructor.
Qed.
End maps.

Section sets.
Context {K CK U : Type} (fuel : nat) (papi : psetapi K unit CK U) (api : setapi K unit CK U) (u0 : U).
Context (Ht : pset_type fuel papi api).
Local Notation history := (list (sop K U * sres)).

Lemma scall_going (R : gset loc) β ρ m (w : world unit CK U) op o : stands β m w -> (∀ r, r ∈ R -> β r (ρ r)) ->
  (∀ a, stakes op = Some a -> a ∈ R) -> scall api (sop_by ρ op) w = o ->
  going sres_as R ρ o (pscall papi op, m, w_usr w).
Proof using Ht.
  intros Hs HR Ho Hc. constructor. exists β, (pscall papi (sop_by ρ op)), w. simpl. split_and!; [|done|done| |done].
  - apply as_scall; [by eapply pset_type_as|]. intros a Ha. by apply HR, Ho.
  - rewrite (sim_scall papi api (sop_by ρ op) (pset_type_sim _ _ _ Ht)). done.
Qed.
Lemma sres_names β (res res0 : sres) : sres_as β res res0 -> ∃ x0, (∀ a, a ∈ sgives res -> β a (x0 a)) /\
  ∀ ρ', (∀ a, a ∈ sgives res -> ρ' a = x0 a) -> sres_by ρ' res = res0.
Proof using.
  destruct res as [|h|b|n|x], res0 as [|h'|b'|n'|x']; simpl; try done; try (intros [= ->]; exists (λ a, a); split; [set_solver +|done]).
  - intros _. exists (λ a, a). split; [set_solver +|done].
  - intros Hh. exists (λ _, h'). split; [by intros a ->%elem_of_singleton|]. intros ρ' Hρ. by rewrite Hρ by set_solver +.
Qed.
Lemma sres_by_as β ρ (res : sres) res0 : sres_as β res res0 -> sres_by ρ res = res0 -> ∀ a, a ∈ sgives res -> β a (ρ a).
Proof using.
  intros Hr <- a Ha. destruct res as [|h|b|n|x]; simpl in *; try (by set_solver +Ha); by apply elem_of_singleton in Ha as ->.
Qed.

Lemma sbeside_stands ok tr R m u tr0 ρ w : sbeside api papi ok u0 tr R m u tr0 ρ w ->
  u = w_usr w /\ ∃ β, stands β m w /\ ∀ r, r ∈ R -> β r (ρ r).
Proof using Ht.
  induction 1 as [ρ|tr R m u tr0 ρ w op res m' u' ρ' w' Hb (Hu & β & Hs & HR) Hok Ho Hmv Hc [Hk _] Hu'|tr R R' m u tr0 ρ w Hb (Hu & β & Hs & HR) Hsub].
  - split; [done|]. exists (λ _ _, False). split; [apply stands_empty|]. set_solver +.
  - split; [done|]. subst u. pose proof (scall_going R β ρ m w op _ Hs HR Ho Hc) as Hgo.
    apply (going_steps sres_as sres_as_grows sres_as_composes _ _ _ _ _ Hgo) in Hmv.
    apply going_ended in Hmv as (β' & y0 & w1 & [= <- <-] & Hres & Hs' & _ & HR'). exists β'. split; [done|].
    intros r Hr. destruct (decide (r ∈ R)) as [Hd|Hd]; [rewrite Hk by done; by apply HR'|].
    eapply sres_by_as; [exact Hres|done|]. set_solver +Hr Hd.
  - split; [done|]. exists β. split; [done|]. intros r Hr. by apply HR, Hsub.
Qed.
Lemma sbeside_srun ok tr R m u tr0 ρ w : sbeside api papi ok u0 tr R m u tr0 ρ w -> srun api ok u0 tr0 w.
Proof using. induction 1; [constructor|by econstructor|done]. Qed.
Lemma sbeside_swild ok tr R m u tr0 ρ w : sbeside api papi ok u0 tr R m u tr0 ρ w -> swild papi u0 tr R m u.
Proof using. induction 1; [constructor|by econstructor|by econstructor]. Qed.

(** The next call. *)
Lemma sbeside_next ok tr R m u tr0 ρ w op res0 w' : sbeside api papi ok u0 tr R m u tr0 ρ w ->
  (∀ a, stakes op = Some a -> a ∈ R) -> scall api (sop_by ρ op) w = Ret res0 w' ->
  (∀ c, rtc (moves sres_as R) (pscall papi op, m, u) c -> ∃ res m' u', rtc (moves sres_as R) c (PRet res, m', u')) /\
  (∀ res m' u', rtc (moves sres_as R) (pscall papi op, m, u) (PRet res, m', u') ->
     u' = w_usr w' /\ ∃ ρ', keeps_names R (R ∪ sgives res) ρ ρ' /\ res0 = sres_by ρ' res).
Proof using Ht.
  intros Hb Ho Hc. destruct (sbeside_stands _ _ _ _ _ _ _ _ Hb) as (-> & β & Hs & HR).
  pose proof (scall_going R β ρ m w op _ Hs HR Ho Hc) as Hgo. split.
  - intros c Hmv. apply (going_steps sres_as sres_as_grows sres_as_composes _ _ _ _ _ Hgo) in Hmv.
    destruct c as [[p m1] u1]. by apply (going_ends sres_as sres_as_grows sres_as_composes) in Hmv.
  - intros res m' u' Hmv. apply (going_steps sres_as sres_as_grows sres_as_composes _ _ _ _ _ Hgo) in Hmv.
    apply going_ended in Hmv as (β' & y0 & w1 & [= <- <-] & Hres & Hs' & Hu & HR'). split; [done|].
    destruct (sres_names β' res res0 Hres) as (x0 & Hx1 & Hx2).
    destruct (new_names β' m' w' R (sgives res) ρ x0 Hs' HR' Hx1) as (ρ' & Hk & _ & Hρ). exists ρ'. split; [done|]. symmetry. by apply Hx2.
Qed.
(** What happens in a wild run happens in a plain one. *)
Lemma swild_sbeside tr R m u : swild papi u0 tr R m u -> ∃ tr0 ρ w, sbeside api papi (λ _ _, True) u0 tr R m u tr0 ρ w.
Proof using Ht.
  induction 1 as [|tr R m u op res m' u' _ (tr0 & ρ & w & Hb) Ho Hmv|tr R R' m u _ (tr0 & ρ & w & Hb) Hsub].
  - eexists _, (λ a, a), _. constructor.
  - destruct (sbeside_stands _ _ _ _ _ _ _ _ Hb) as (-> & β & Hs & HR).
    pose proof (scall_going R β ρ m w op _ Hs HR Ho eq_refl) as Hgo.
    pose proof (going_steps sres_as sres_as_grows sres_as_composes _ _ _ _ _ Hgo Hmv) as Hgo'.
    apply going_ended in Hgo' as (_ & res0 & w' & Hc & _).
    destruct (sbeside_next _ _ _ _ _ _ _ _ _ _ _ Hb Ho Hc) as [_ Hn]. destruct (Hn _ _ _ Hmv) as (Hu & ρ' & Hk & ->).
    eexists _, ρ', w'. by econstructor.
  - exists tr0, ρ, w. by econstructor.
Qed.
End sets.
