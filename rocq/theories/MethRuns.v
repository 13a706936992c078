(** Executions with key methods that may panic behave as those without. *)
From stdpp Require Import base numbers list gmap.
From Coq Require Import SpecFloat.
From Verif Require Import GoInt Mem Hash Amt Families BitsFacts Steps Tree Rep Paths Descend Insert Split Delete Remove Core Scan Order Heap Spec SpecFacts HashFacts Guards Client Types Refine RefineSet Instances Pack CostTypes Cost CostPack EAmt Meth MethSpec.
From Verif Require ObserveFacts ObserveSet.
Local Open Scope nat_scope.

(** ** Scratch paths do not matter *)
Section nearly.
Context {K HS V CK U : Type} (F : fam K HS V CK U) (L : layout K V CK).

Definition nearw (w w' : world V CK U) : Prop :=
  nearly (w_mem w) (w_mem w') /\ w_nxt w' = w_nxt w /\ w_usr w' = w_usr w.

Lemma nearly_same (m m' : gmap loc (block V CK)) l b : nearly m m' -> m !! l = Some b -> (∀ rt, b ≠ BRoot rt) -> m' !! l = Some b.
Proof. intros Hn Hl Hb. destruct (Hn l) as [->|(r & p & Hr & _)]; [done|]. rewrite Hl in Hr. injection Hr as ->. by destruct (Hb r). Qed.
Lemma nearly_rep (m m' : gmap loc (block V CK)) (t : tree K) : nearly m m' -> ∀ d lk, rep L m d lk t -> rep L m' d lk t.
Proof.
  intros Hn. induction t as [k p|a cs IH] using tree_ind'; intros d lk Hr.
  - apply rep_leaf_inv in Hr as (-> & Hok & Hc). constructor; [done|].
    unfold cell in *. destruct (ly_cell L); [|done]. destruct Hc as (a & v & -> & Ha). exists a, v. split; [done|].
    by eapply nearly_same.
  - apply rep_node_inv in Hr as (-> & Hrs & lks & rest & Ha & Hlen & Hf).
    apply (rep_node _ _ _ _ _ lks rest); try done.
    + by eapply nearly_same.
    + clear Ha Hlen Hrs. induction Hf as [|lk c lks cs Hr Hf IHf]; constructor.
      * apply Forall_cons in IH as [IH _]. by apply IH.
      * apply Forall_cons in IH as [_ IH]. by apply IHf.
Qed.
Lemma nearly_MapI B w w' r seed T : nearw w w' -> MapI L B w r seed T -> MapI L B w' r seed T.
Proof.
  intros (Hn & _ & _) [(rt & Hr & Hs & Hrep & Hlen & Hdep & Hpath) Hnd Hc Hh]. constructor; try done.
  assert (∃ rt', w_mem w' !! r = Some (BRoot rt') /\ rt_link rt' = rt_link rt /\ rt_seed rt' = rt_seed rt /\
    rt_len rt' = rt_len rt /\ rt_dep rt' = rt_dep rt /\ length (rt_path rt') = length (rt_path rt)) as (rt' & Hr' & E1 & E2 & E3 & E4 & E5).
  { destruct (Hn r) as [E|(r0 & p & E0 & E & El)]; [exists rt; rewrite E; done|].
    rewrite Hr in E0. injection E0 as <-. exists (rt_with_path p rt). done. }
  exists rt'. split_and!; try congruence. rewrite E1. by eapply nearly_rep.
Qed.
Lemma nearly_Inv N Q w w' G : nearw w w' -> Inv F L N Q w G -> Inv F L N Q w' G.
Proof.
  intros Hn [Hok Hg Hs]. constructor; [| |done].
  - destruct Hn as (Hn & Hx & _). intros l b Hl. rewrite Hx. destruct (Hn l) as [E|(r & p & E & _)].
    + rewrite E in Hl. by eapply Hok.
    + by eapply Hok.
  - intros h s T HG. destruct (Hg _ _ _ HG) as [HQ [HM Hp]]. split; [done|]. split; [|done]. by eapply nearly_MapI.
Qed.
Lemma nearly_vals w w' : nearw w w' -> vals w' = vals w.
Proof.
  intros (Hn & _ & _). apply map_eq. intros l. rewrite !vals_lookup. destruct (Hn l) as [->|(r & p & -> & -> & _)]; done.
Qed.
Lemma nearly_Rel `{Countable K} Q w w' σ : nearw w w' -> Refine.Rel F L Q w σ -> Refine.Rel F L Q w' σ.
Proof.
  intros Hn (G & HI & Hm & Hv & Hu). exists G. split_and!; [by eapply nearly_Inv|done|by rewrite (nearly_vals _ _ Hn)|].
  destruct Hn as (_ & _ & ->). done.
Qed.
Lemma nearly_SRel `{Countable K} Q w w' σ : nearw w w' -> RefineSet.Rel F L Q w σ -> RefineSet.Rel F L Q w' σ.
Proof.
  intros Hn (G & HI & Hm & Hu). exists G. split_and!; [by eapply nearly_Inv|done|].
  destruct Hn as (_ & _ & ->). done.
Qed.
End nearly.

(** ** Keys that are moved down *)
Section calm.
Context {K HS V CK U : Type} (A : fam K HS V CK U) (L : layout K V CK) (HF : fam_ok A L) (HL : laws A L).
Variable dp : N -> K -> N -> Prop.

Lemma calm_hproc s k ck f : ∀ d, d + f <= 255 -> (∀ i, i <= d -> nib A s k i = nib A s ck i) ->
  (∀ e, d < e -> e < 256 -> e mod 16 = 0 -> (∀ i, i < e -> nib A s k i = nib A s ck i) -> dp s k (N.of_nat e) /\ dp s ck (N.of_nat e)) ->
  calm_path A dp f s k ck (hproc A s k d) (hproc A s ck d) (N.of_nat d).
Proof.
  induction f as [|f IH]; intros d Hd Hag Hdp; [done|]. cbn [calm_path].
  replace (N.of_nat d + 1)%N with (N.of_nat (S d)) by lia. split.
  - intros Hm. apply Hdp; [lia|lia| |].
    + change 16%N with (N.of_nat 16) in Hm. rewrite <- Nat2N.inj_mod in Hm. lia.
    + intros i Hi. apply Hag. lia.
  - change (advance A s k (N.of_nat (S d)) (hproc A s k d)) with (hproc A s k (S d)).
    change (advance A s ck (N.of_nat (S d)) (hproc A s ck d)) with (hproc A s ck (S d)).
    intros Hb. apply IH; [lia| |].
    + intros i Hi. destruct (decide (i = S d)) as [->|]; [|apply Hag; lia].
      unfold nib. pose proof (radix_of_lt (hproc A s k (S d))). pose proof (radix_of_lt (hproc A s ck (S d))). apply bit_of_inj; [lia|lia|done].
    + intros e He. apply Hdp. lia.
Qed.

Lemma tree_calm s w r T k : Good A L 240 s w r T -> ly_ok L k -> clear A L 240 s T k ->
  ((∀ p, (k, p) ∉ leaves T) -> ∀ q ck cp, (q, (ck, cp)) ∈ pleaves [] T -> q = nibs A s k (length q) -> ck ≠ k ->
     ∀ e, 0 < e -> e < 256 -> e mod 16 = 0 -> (∀ i, i < e -> nib A s k i = nib A s ck i) -> dp s k (N.of_nat e) /\ dp s ck (N.of_nat e)) ->
  calm_ins A dp 256 (Some r) k w.
Proof.
  intros HG Hok Hre Hdp rt f' h' d l item x w1 iv w2 ck w3 ch Hrt Hd Hiv Hck Hne Hcf.
  pose proof (Good_wf _ _ _ _ _ _ _ HG) as Hwf. assert (Hpl : placed A s T) by apply HG.
  destruct (load_seed _ _ _ _ _ _ _ HG) as (rt' & Hrt' & Hs). rewrite Hrt in Hrt'. injection Hrt' as <-. rewrite Hs in *.
  destruct (descend_plain A L 240 s le240 w r T k 256 HG (le_n _)) as (c & a & [(cs & Hst & Hd')|(bef & k' & p & aft & Hst & Hd')]);
    rewrite Hd' in Hd; [done|]. injection Hd as <- <- <- <- <- _ <-.
  assert (Hin : (k', p) ∈ leaves T) by (by eapply present_leaf).
  destruct (Good_ok _ _ _ _ _ _ _ _ _ HG Hin) as [Hok' Hcell].
  assert (Hitem : link_at (w_mem w) (SlotRef a (length bef)) = Some (ly_leaf L k' p)) by (by eapply item_at).
  rewrite (load_link_step _ _ _ Hitem) in Hiv. injection Hiv as <- <-.
  rewrite (fo_key _ _ HF _ _ _ Hok' Hcell) in Hck. injection Hck as <- <-.
  assert (Hkk : k ≠ k').
  { intros <-. assert (f_eq A k k = true) by (by apply HL). congruence. }
  assert (Habs : ∀ p', (k, p') ∉ leaves T).
  { intros p' Hp'. eapply present_unique in Hst as [-> _]; done. }
  destruct Hst as (HT & Hr).
  assert (Hagree : ∀ i, i <= length c -> nib A s k i = nib A s k' i).
  { rewrite <- HT in Hpl. rewrite placed_plug, pleaves_node, cspl_app, cspl_cons, !Forall_app in Hpl.
    destruct Hpl as (_ & _ & Hp & _). cbn [fst snd pleaves] in Hp. apply Forall_cons in Hp as [Hp _].
    unfold well in Hp. cbn [fst snd] in Hp. rewrite app_length, rads_length, Nat.add_1_r, Hr, <- nibs_S in Hp.
    intros i Hi. apply (f_equal (λ l, l !! i)) in Hp. rewrite !nibs_lookup in Hp by lia. congruence. }
  assert (Hpin : (nibs A s k (S (length c)), (k', p)) ∈ pleaves [] T).
  { rewrite <- HT, pleaves_plug, pleaves_node, cspl_app, cspl_cons. cbn [fst snd pleaves].
    rewrite nibs_S, <- Hr. set_solver +. }
  assert (Hpeq : nibs A s k (S (length c)) = nibs A s k (length (nibs A s k (S (length c))))) by (by rewrite nibs_length).
  destruct (Hre Habs _ _ _ Hpin Hpeq (not_eq_sym Hkk) Hok') as (Hconf & (d0 & Hd0 & Hd0ne) & _).
  rewrite nibs_length in Hconf. replace (S (length c) - 1) with (length c) in Hconf by lia.
  specialize (Hdp Habs _ _ _ Hpin Hpeq (not_eq_sym Hkk)).
  assert (Hlc : length c < d0). { destruct (decide (length c < d0)); [done|]. destruct Hd0ne. apply Hagree. lia. }
  rewrite Hconf in Hcf by lia. injection Hcf as <-. apply calm_hproc; [lia|done|]. intros e He. apply Hdp. lia.
Qed.
End calm.

(** ** The families *)
Lemma conf_more f : ∀ n b c d h x, f <= n -> conf_loop f b c d h = Some x -> conf_loop n b c d h = Some x.
Proof.
  induction f as [|f IH]; intros n b c d h x Hn; [done|]. destruct n as [|n]; [lia|]. simpl.
  destruct (_ <=? _)%N; [|done]. apply IH. lia.
Qed.

Section fams.
Context {K V U C : Type}.

Lemma arr_rel sum64 keq KeyBytes (keq' : K -> K -> C -> C * option bool) (KeyBytes' : K -> C -> C * option bytes) :
  (∀ k k', answers (keq' k k') (keq k k')) -> (∀ k, answers (KeyBytes' k) (KeyBytes k)) ->
  famrel ((∃ k k', can_panic (keq' k k')) \/ ∃ k, can_panic (KeyBytes' k))
    (arr_efam (V:=V) (U:=U) sum64 keq' KeyBytes') (arr_fam sum64 keq KeyBytes) (λ k h h', h = (h', KeyBytes k)) (λ _ _ _, True).
Proof.
  intros He Hk. set (bad := _ \/ _).
  assert (Hkb : ∀ k, tries (V:=V) (CK:=K) (U:=U) bad eq (meth (KeyBytes' k)) (ret (KeyBytes k))).
  { intros k. apply t_meth; [apply Hk|]. intros c Hc. right. exists k. by exists c. }
  constructor; try done.
  - intros s k. simpl. eapply t_left; [apply Hkb|]. intros kb ->. by apply t_ret.
  - intros s k d [h x] h' [Hh Hx]. simpl in *. subst. by apply t_ret.
  - intros s k d [h x] h' [Hh Hx] _ _ _ _. simpl in *. subst. by apply f_ret.
  - intros f n s k ck d Hn. simpl. eapply t_left; [apply Hkb|]. intros kb ->. apply t_ret.
    intros h'. unfold stream_conf. destruct (conf_loop f (KeyBytes ck) 0 d (mh_new s)) as [x|] eqn:Ex; [|done].
    rewrite (conf_more _ n _ _ _ _ _ Hn Ex). intros [= <-]. eexists. done.
  - intros k ck. apply t_meth; [apply He|]. intros c Hc. left. exists ck, k. by exists c.
  - intros iv. simpl. unfold kv_key. eapply (t_bind bad eq); [apply t_load_kv|]. intros x ? <-. by apply t_ret.
Qed.

Lemma gen_rel is_mod Equal Hash (Equal' : K -> K -> C -> C * option bool) (Hash' : K -> N -> N -> C -> C * option N) :
  (∀ k k', answers (Equal' k k') (Equal k k')) -> (∀ k s i, answers (Hash' k s i) (Hash k s i)) ->
  famrel ((∃ k k', can_panic (Equal' k k')) \/ ∃ k s i, can_panic (Hash' k s i))
    (gen_efam (V:=V) (U:=U) Equal' Hash' is_mod) (if is_mod then gen_mod_fam Equal Hash else gen_fam Equal Hash) (λ _ _ _, True)
    (λ s k d, ¬ can_panic (Hash' k s (N.shiftr d 4))).
Proof.
  intros He Hh. set (bad := _ \/ _).
  assert (Hhash : ∀ k s i, tries (V:=V) (CK:=K) (U:=U) bad eq (meth (Hash' k s i)) (ret (Hash k s i))).
  { intros k s i. apply t_meth; [apply Hh|]. intros c Hc. right. exists k, s, i. by exists c. }
  constructor.
  - intros s k. simpl. eapply t_left; [apply Hhash|]. intros x ->. apply t_ret. by destruct is_mod.
  - intros s k d h h' _. simpl. eapply t_left; [apply Hhash|]. intros x ->. apply t_ret. by destruct is_mod.
  - intros s k d h h' _ _ _ _ Hz. simpl. eapply f_left; [apply f_meth|].
    + apply Hh.
    + intros c Hc. apply Hz. by exists c.
    + intros x ->. apply f_ret. by destruct is_mod.
  - intros f n s k ck d _. simpl. eapply t_left; [apply Hhash|]. intros x ->. apply t_ret.
    intros h'. destruct is_mod; simpl; intros [= <-]; by eexists.
  - intros k ck. replace (f_eq _ k ck) with (Equal k ck) by (by destruct is_mod).
    apply t_meth; [apply He|]. intros c Hc. left. exists k, ck. by exists c.
  - intros iv. replace (f_key _ iv) with (kv_key (K:=K) (V:=V) (U:=U) iv) by (by destruct is_mod).
    simpl. unfold kv_key. eapply (t_bind bad eq); [apply t_load_kv|]. intros x ? <-. by apply t_ret.
  - intros k p. by destruct is_mod.
  - intros k p x. by destruct is_mod.
Qed.

(** Keys in the way of which the hashes do not panic are moved down without a panic. *)
Lemma gen_calm (is_mod : bool) Equal Hash (Hash' : K -> N -> N -> C -> C * option N) P `{EqDecision K} s (w : world V K U) r T k ks :
  decides_eq Equal P -> Good (gen_fam Equal Hash) (kv_layout P) 240 s w r T -> P k -> ks ≡ₚ map fst (leaves T) ->
  ((∀ p, (k, p) ∉ leaves T) -> free (gdigit Hash) (λ s k k' d,
     (if is_mod then mod_way Hash else set_way Hash) s k k' d /\ calm Hash Hash' s k k') s ks k) ->
  calm_ins (if is_mod then gen_mod_fam Equal Hash else gen_fam Equal Hash) (λ s k d, ¬ can_panic (Hash' k s (N.shiftr d 4))) 256 (Some r) k w.
Proof.
  intros Hd HG Hk Hks Hfree.
  set (A := if is_mod then gen_mod_fam Equal Hash else gen_fam Equal Hash).
  assert (HA : alike (gen_fam Equal Hash) (kv_layout P) A).
  { subst A. destruct is_mod; [by apply gen_mod_alike|by apply gen_alike]. }
  assert (HW : goodway (kv_layout P) (gdigit Hash) A (if is_mod then mod_way Hash else set_way Hash)).
  { subst A. destruct is_mod; [apply (gen_mod_goodway Equal)|apply (gen_goodway Equal)]. }
  assert (Hcl : clear A (kv_layout P) 240 s T k).
  { eapply (way_clear (gen_fam Equal Hash) (kv_layout P) (gdigit Hash) (gen_nib Equal Hash) A _ s w r T k ks HA HW Hk HG Hks).
    intros Habs k' Hin. destruct (Hfree Habs k' Hin) as (H1 & H2 & _). done. }
  assert (Hn : ∀ k i, nib A s k i = gdigit Hash s k i).
  { intros k0 i. rewrite (proj1 (proj2 HA)). apply gen_nib. }
  assert (HG' : Good A (kv_layout P) 240 s w r T) by (subst A; by destruct is_mod).
  apply (tree_calm A (kv_layout P) (proj1 HA) (proj2 (proj2 HA)) _ s w r T k HG' Hk Hcl).
  intros Habs q ck cp Hin Hq Hne e He0 He Hem Hag.
  assert (Hq' : q = nibs (gen_fam (V:=V) (U:=U) Equal Hash) s k (length q)).
  { rewrite Hq at 1. unfold nibs. apply map_ext. intros. by rewrite Hn, gen_nib. }
  destruct (way_of (gen_fam (U:=U) Equal Hash) (kv_layout P) (gdigit Hash) (gen_nib Equal Hash) s w r T k q ck cp ks HG Hks Hin Hq' Hne) as (Hway & _).
  destruct (Hfree Habs ck Hway) as (_ & _ & Hcm).
  assert (e = 16 * (e / 16)) as Ee. { pose proof (Nat.div_mod_eq e 16). lia. }
  replace (N.shiftr (N.of_nat e) 4) with (N.of_nat (e / 16)).
  2: { rewrite N.shiftr_div_pow2. change (2 ^ 4)%N with (N.of_nat 16). by rewrite Nat2N.inj_div. }
  apply Hcm; [lia|]. intros i Hi. rewrite <- !Hn. apply Hag. lia.
Qed.
End fams.

(** ** Calls *)
Local Arguments Len : simpl never.
Local Arguments Dep : simpl never.
Local Arguments New : simpl never.
Section calls.
Context {K V U C : Type}.

Lemma f_mod_cb (f : U -> V -> bool -> U * V) p b :
  follows eq (mod_cb (CK:=K) (λ (uc : U * C) v b, ((((f uc.1 v b).1, uc.2), (f uc.1 v b).2))) p b) (mod_cb f p b).
Proof.
  unfold mod_cb. eapply (f_bind eq); [apply f_load_kv|]. intros x ? <-.
  eapply f_bind; [apply f_get|]. intros uc u <-. simpl.
  eapply (f_bind eq); [apply f_store_val|]. intros ? ? _. by apply f_put.
Qed.
Lemma f_all_cb (f : U -> K -> V -> U * V * bool) k p :
  follows eq (all_cb (CK:=K) (λ (uc : U * C) k v, ((((f uc.1 k v).1.1, uc.2), (f uc.1 k v).1.2), (f uc.1 k v).2)) k p) (all_cb f k p).
Proof.
  unfold all_cb. eapply (f_bind eq); [apply f_load_kv|]. intros x ? <-.
  eapply f_bind; [apply f_get|]. intros uc u <-. simpl.
  eapply (f_bind eq); [apply f_store_val|]. intros ? ? _. eapply (f_bind eq); [by apply f_put|]. intros ? ? _. by apply f_ret.
Qed.
Lemma f_set_cb (f : U -> K -> U * bool) k :
  follows (V:=V) (CK:=K) eq (set_cb (λ (uc : U * C) k, (((f uc.1 k).1, uc.2), (f uc.1 k).2)) k) (set_cb f k).
Proof.
  unfold set_cb. eapply f_bind; [apply f_get|]. intros uc u <-. simpl.
  eapply (f_bind eq); [by apply f_put|]. intros ? ? _. by apply f_ret.
Qed.
Lemma f_kv_new v k : follows (V:=V) (CK:=K) (U:=U) (C:=C) eq (kv_new v k) (kv_new v k).
Proof. unfold kv_new. eapply (f_bind eq); [apply f_alloc|]. intros ? ? <-. by apply f_ret. Qed.
Lemma f_kv_key iv : follows (V:=V) (CK:=K) (U:=U) (C:=C) eq (kv_key iv) (kv_key iv).
Proof. unfold kv_key. eapply (f_bind eq); [apply f_load_kv|]. intros ? ? <-. by apply f_ret. Qed.

Lemma set_oprel {HS} (A : fam K HS V K U) k v : f_new A = kv_new ->
  oprel (Amt.set_op (kv_base (C:=C)) k v) (Amt.set_op A k v).
Proof. intros HA. constructor; simpl; try done; rewrite ?HA; try apply f_kv_new. intros iv. apply f_store_val. Qed.
Lemma split_oprel {HS} (A : fam K HS V K U) k v z : f_new A = kv_new ->
  oprel (with_split (Amt.set_op (kv_base (C:=C)) k v) (kv_new z k)) (with_split (Amt.set_op A k v) (f_new A z k)).
Proof. intros HA. constructor; simpl; try done; rewrite ?HA; try apply f_kv_new. intros iv. apply f_store_val. Qed.
Lemma add_oprel {HS} (A : fam K HS V K U) k z : f_new A = kv_new ->
  oprel (add_op (kv_base (C:=C)) z k) (add_op A z k).
Proof. intros HA. constructor; simpl; try done; rewrite ?HA; try apply f_kv_new. intros iv. by apply f_ret. Qed.
Lemma mod_oprel {HS} (A : fam K HS V K U) k z g g' : f_new A = kv_new -> (∀ p b, follows eq (g p b) (g' p b)) ->
  oprel (mod_op (kv_base (C:=C)) z k g) (mod_op A z k g').
Proof.
  intros HA Hg.
  assert (Hn : follows eq (mod_new (kv_base (C:=C)) z k g) (mod_new A z k g')).
  { unfold mod_new. rewrite HA. eapply (f_bind eq); [apply f_kv_new|]. intros p ? <-.
    eapply (f_bind eq); [apply Hg|]. intros ? ? _. by apply f_ret. }
  constructor; simpl; try done. intros iv. destruct (lk_ptr iv); [apply f_panic|apply Hg].
Qed.
Lemma f_all_map {HS} (A : fam K HS V K U) f n h g g' : f <= n -> f_key A = kv_key -> (∀ k p, follows eq (g k p) (g' k p)) ->
  follows eq (all_map (kv_base (C:=C)) n h g) (all_map A f h g').
Proof.
  intros Hn HA Hg. unfold all_map. destruct h as [r|]; [|apply f_panic].
  eapply (f_bind eq); [|intros ? ? _; by apply f_ret]. apply f_scan; [done|].
  intros iv. unfold act_map. rewrite HA. eapply (f_bind eq); [apply f_kv_key|]. intros k ? <-.
  destruct (lk_ptr iv); [apply f_panic|apply Hg].
Qed.
Lemma f_all_set {HS} (A : fam K HS V K U) f n h g g' : f <= n -> f_key A = kv_key -> (∀ k, follows eq (g k) (g' k)) ->
  follows eq (all_set (kv_base (C:=C)) n h g) (all_set A f h g').
Proof.
  intros Hn HA Hg. unfold all_set. destruct h as [r|]; [|apply f_panic].
  eapply (f_bind eq); [|intros ? ? _; by apply f_ret]. apply f_scan; [done|].
  intros iv. unfold act_set. rewrite HA. eapply (f_bind eq); [apply f_kv_key|]. intros k ? <-. apply Hg.
Qed.

(** The methods of two map types agree; Set and Mod where [fit] holds. *)
Record mapi_rel (bad : Prop) (fit : bool -> option loc -> K -> world V K U -> Prop) (api : mapapi K V K (U * C)) (api' : mapapi K V K U) : Prop := MapiRel {
  mr_Set : ∀ h k v w, fit false h k (erase w) -> does_at bad eq (ma_Set api h k v) (ma_Set api' h k v) w;
  mr_Mod : ∀ h k g g' w, (∀ p b, follows eq (g p b) (g' p b)) -> fit true h k (erase w) ->
    does_at bad eq (ma_Mod api h k g) (ma_Mod api' h k g') w;
  mr_Del : ∀ h k, does bad eq (ma_Del api h k) (ma_Del api' h k);
  mr_Get : ∀ h k, does bad eq (ma_Get api h k) (ma_Get api' h k);
  mr_Val : ∀ h k, does bad eq (ma_Val api h k) (ma_Val api' h k);
  mr_Ptr : ∀ h k, does bad eq (ma_Ptr api h k) (ma_Ptr api' h k);
  mr_All : ∀ h g g', (∀ k p, follows eq (g k p) (g' k p)) -> follows eq (ma_All api h g) (ma_All api' h g') }.
Definition op_fit (fit : bool -> option loc -> K -> world V K U -> Prop) (op : mop K V U) (w : world V K U) : Prop :=
  match op with MSet h k _ => fit false (Some h) k w | MMod h k _ => fit true (Some h) k w | _ => True end.
Lemma mcall_rel bad fit api api' op w : mapi_rel bad fit api api' -> op_fit fit op (erase w) ->
  does_at bad eq (mcall api (emap_op op)) (mcall api' op) w.
Proof.
  intros [HS HM HD HG HV HP HA] Hfit. revert w Hfit.
  destruct op as [s|h k v|h k f|h k|h k|h k|h k|h|h|h f|p|p v]; simpl; intros w Hfit.
  - apply follows_does. eapply (f_bind eq); [apply f_New|]. intros [x|] ? <-; simpl.
    + eapply (f_bind eq); [by apply f_ret|]. intros ? ? <-. by apply f_ret.
    + by intros w0.
  - eapply (dd_bind_at _ eq); [by apply HS|]. done.
  - eapply (dd_bind_at _ eq); [apply HM; [intros; apply f_mod_cb|done]|]. done.
  - eapply (dd_bind _ eq); [apply HD|]. done.
  - eapply (dd_bind _ eq); [apply HG|]. by intros a ? <-.
  - eapply (dd_bind _ eq); [apply HV|]. by intros a ? <-.
  - eapply (dd_bind _ eq); [apply HP|]. by intros a ? <-.
  - eapply (dd_bind _ eq); [apply follows_does, f_Len|]. by intros a ? <-.
  - eapply (dd_bind _ eq); [apply follows_does, f_Dep|]. by intros a ? <-.
  - eapply (dd_bind _ eq); [apply follows_does, HA; intros; apply f_all_cb|]. done.
  - eapply (dd_bind _ eq); [apply follows_does, f_load_kv|]. by intros a ? <-.
  - eapply (dd_bind _ eq); [apply follows_does, f_store_val|]. done.
Qed.
(** Calls that call no key method. *)
Lemma mcall_keyless bad fit api api' op : mapi_rel bad fit api api' ->
  match op with MNew _ | MLen _ | MDep _ | MAll _ _ | MLoad _ | MStore _ _ => True | _ => False end ->
  follows eq (mcall api (emap_op op)) (mcall api' op).
Proof.
  intros [_ _ _ _ _ _ HA] Hop.
  destruct op as [s|h k v|h k f|h k|h k|h k|h k|h|h|h f|p|p v]; try done; simpl.
  - eapply (f_bind eq); [apply f_New|]. intros [x|] ? <-; simpl.
    + eapply (f_bind eq); [by apply f_ret|]. intros ? ? <-. by apply f_ret.
    + by intros w.
  - eapply (f_bind eq); [apply f_Len|]. intros a ? <-. by apply f_ret.
  - eapply (f_bind eq); [apply f_Dep|]. intros a ? <-. by apply f_ret.
  - eapply (f_bind eq); [apply HA; intros; apply f_all_cb|]. intros ? ? _. by apply f_ret.
  - eapply (f_bind eq); [apply f_load_kv|]. intros a ? <-. by apply f_ret.
  - eapply (f_bind eq); [apply f_store_val|]. intros ? ? _. by apply f_ret.
Qed.
End calls.

Section setcalls.
Context {K U C : Type}.
Record seti_rel (bad : Prop) (fit : option loc -> K -> world unit K U -> Prop) (api : setapi K unit K (U * C)) (api' : setapi K unit K U) : Prop := SetiRel {
  sr_Add : ∀ h k w, fit h k (erase w) -> does_at bad eq (sa_Add api h k) (sa_Add api' h k) w;
  sr_Del : ∀ h k, does bad eq (sa_Del api h k) (sa_Del api' h k);
  sr_Has : ∀ h k, does bad eq (sa_Has api h k) (sa_Has api' h k);
  sr_All : ∀ h g g', (∀ k, follows eq (g k) (g' k)) -> follows eq (sa_All api h g) (sa_All api' h g') }.
Definition sop_fit (fit : option loc -> K -> world unit K U -> Prop) (op : sop K U) (w : world unit K U) : Prop :=
  match op with SAdd h k => fit (Some h) k w | _ => True end.
Lemma scall_rel bad fit api api' op w : seti_rel bad fit api api' -> sop_fit fit op (erase w) ->
  does_at bad eq (scall api (eset_op op)) (scall api' op) w.
Proof.
  intros [HS HD HG HA] Hfit. revert w Hfit.
  destruct op as [s|h k|h k|h k|h|h|h f]; simpl; intros w Hfit.
  - apply follows_does. eapply (f_bind eq); [apply f_New|]. intros [x|] ? <-; simpl.
    + eapply (f_bind eq); [by apply f_ret|]. intros ? ? <-. by apply f_ret.
    + by intros w0.
  - eapply (dd_bind_at _ eq); [by apply HS|]. done.
  - eapply (dd_bind _ eq); [apply HD|]. done.
  - eapply (dd_bind _ eq); [apply HG|]. by intros a ? <-.
  - eapply (dd_bind _ eq); [apply follows_does, f_Len|]. by intros a ? <-.
  - eapply (dd_bind _ eq); [apply follows_does, f_Dep|]. by intros a ? <-.
  - eapply (dd_bind _ eq); [apply follows_does, HA; intros; apply f_set_cb|]. done.
Qed.
Lemma scall_keyless bad fit api api' op : seti_rel bad fit api api' ->
  match op with SNew _ | SLen _ | SDep _ | SAll _ _ => True | _ => False end ->
  follows eq (scall api (eset_op op)) (scall api' op).
Proof.
  intros [_ _ _ HA] Hop. destruct op as [s|h k|h k|h k|h|h|h f]; try done; simpl.
  - eapply (f_bind eq); [apply f_New|]. intros [x|] ? <-; simpl.
    + eapply (f_bind eq); [by apply f_ret|]. intros ? ? <-. by apply f_ret.
    + by intros w.
  - eapply (f_bind eq); [apply f_Len|]. intros a ? <-. by apply f_ret.
  - eapply (f_bind eq); [apply f_Dep|]. intros a ? <-. by apply f_ret.
  - eapply (f_bind eq); [apply HA; intros; apply f_set_cb|]. intros ? ? _. by apply f_ret.
Qed.
End setcalls.

(** ** The types *)
Lemma guard_imp `{Countable K} {V U} dig (WS WM WS' WM' : N -> K -> K -> nat -> Prop) (tr : list (mop K V U * mres V)) op :
  (∀ s k k' d, WS s k k' d -> WS' s k k' d) -> (∀ s k k' d, WM s k k' d -> WM' s k k' d) ->
  ins_guard dig WS WM tr op -> ins_guard dig WS' WM' tr op.
Proof.
  intros HS HM Hg. destruct op as [s|h k v|h k f|h k|h k|h k|h k|h|h|h f|p|p v]; try done; simpl in *;
    (destruct Hg as [Hg|Hg]; [by left|right]); intros s Hs k' Hk'; destruct (Hg s Hs k' Hk') as [H1 H2]; auto.
Qed.

Lemma emap_kv {V U C} (zero : V) fuel `{HK : Countable K} (api : mapapi K V K (U * C)) bad dig ok : 256 <= fuel ->
  emap_type zero fuel api bad dig ok ->
  ∃ (api' : mapapi K V K U) HS (F : fam K HS V K U) P0 fit,
    mpack_of F (kv_layout P0) zero 256 api' dig ok /\ mapi_rel bad fit api api' /\
    ∀ Q u0 tr σ w op, mspec dig zero u0 tr σ -> Refine.Rel F (kv_layout P0) Q w σ -> ok tr op -> op_fit fit op w.
Proof.
  intros Hfuel. destruct 1 as [K E0 C0 sum64 keq KeyBytes P Q keq' KeyBytes' Hd He Hk|K E0 C0 Equal Hash P Q Equal' Hash' Hd He Hh].
  - exists (ArrMap_api sum64 zero 256 keq KeyBytes), mhash, (arr_fam sum64 keq KeyBytes), P, (λ _ _ _ _, True). split; [|split].
    + pose proof (kv_alike (U:=U) sum64 KeyBytes V _ P (keq_eq _ _ Hd)) as HA.
      eapply (MPackOf _ _ _ _ _ _ _ (arr_fam sum64 keq KeyBytes) (arr_fam sum64 keq KeyBytes) Q (λ k v, with_split (set_op (arr_fam sum64 keq KeyBytes) k v) (f_new (arr_fam sum64 keq KeyBytes) zero k))
        (mod_op (arr_fam sum64 keq KeyBytes) zero) (λ _, zero) no_way any_way); try done.
      * apply kv_fam_ok.
      * apply (kv_laws (U:=U) sum64 KeyBytes V _ P (keq_eq _ _ Hd)).
      * apply kv_dig.
      * apply kv_goodway.
    + pose proof (arr_rel (V:=V) (U:=U) sum64 keq KeyBytes keq' KeyBytes' He Hk) as HR.
      constructor; intros.
      * apply (d_einsert _ _ _ _ _ HR); [by apply split_oprel|lia|lia|by apply calm_ins_all].
      * apply (d_einsert _ _ _ _ _ HR); [by apply mod_oprel|lia|lia|by apply calm_ins_all].
      * apply (d_edelete _ _ _ _ _ HR); lia.
      * apply tries_does, (t_eget _ _ _ _ _ HR); lia.
      * apply tries_does, (t_eval _ _ _ _ _ HR); lia.
      * apply tries_does, (t_eptr _ _ _ _ _ HR); lia.
      * by apply f_all_map.
    + intros Q0 u0 tr σ w op _ _ _. by destruct op.
  - set (dp := λ s k d, ¬ can_panic (Hash' k s (N.shiftr d 4))).
    exists (Map_api zero 256 Equal Hash), unit, (gen_fam Equal Hash), P,
      (λ (b : bool) h k w, calm_ins (if b then gen_mod_fam Equal Hash else gen_fam Equal Hash) dp 256 h k w). split; [|split].
    + eapply (MPackOf _ _ _ _ _ _ _ (gen_fam Equal Hash) (gen_mod_fam Equal Hash) Q (set_op (gen_fam Equal Hash)) (mod_op (gen_fam Equal Hash) zero) (λ v, v) (set_way Hash) (mod_way Hash)); try done.
      * apply kv_fam_ok.
      * apply gen_nib.
      * by apply gen_alike.
      * by apply gen_mod_alike.
      * apply (gen_goodway Equal).
      * apply (gen_mod_goodway Equal).
      * intros tr op [Ha Hg]. split; [done|]. eapply guard_imp; [| |exact Hg]; by intros ???? [? _].
    + pose proof (gen_rel (V:=V) (U:=U) false Equal Hash Equal' Hash' He Hh) as HR.
      pose proof (gen_rel (V:=V) (U:=U) true Equal Hash Equal' Hash' He Hh) as HR'.
      constructor; intros.
      * apply (d_einsert _ _ _ _ _ HR); [by apply set_oprel|lia|lia|assumption].
      * apply (d_einsert _ _ _ _ _ HR'); [by apply mod_oprel|lia|lia|assumption].
      * apply (d_edelete _ _ _ _ _ HR); lia.
      * apply tries_does, (t_eget _ _ _ _ _ HR); lia.
      * apply tries_does, (t_eval _ _ _ _ _ HR); lia.
      * apply tries_does, (t_eptr _ _ _ _ _ HR); lia.
      * by apply f_all_map.
    + intros Q0 u0 tr σ w op Hs HR [Ha Hg].
      assert (Hx : ∀ (b : bool) h k, (∃ s, (MNew s, RHandle h) ∈ tr) -> P k ->
        k ∈ stored tr h \/ (∀ s, (MNew s, RHandle h) ∈ tr -> free (gdigit Hash) (λ s k k' d,
          (if b then mod_way Hash else set_way Hash) s k k' d /\ calm Hash Hash' s k k') s (elements (stored tr h)) k) ->
        calm_ins (if b then gen_mod_fam Equal Hash else gen_fam Equal Hash) dp 256 (Some h) k w).
      { intros b h k Hn HPk Hf. pose proof (guard_fits zero (gdigit Hash) _ u0 tr σ h k Hs Hn Hf) as (s & m & Hm & Hfree).
        destruct (Refine.Rel_handle _ _ _ _ _ h HR (ex_intro _ _ Hm)) as (G & s' & T & _ & _ & _ & HG & _ & Hm' & _).
        rewrite Hm in Hm'. injection Hm' as -> ->.
        apply (gen_calm b Equal Hash Hash' P s' w h T k (map_to_list (dict T)).*1 Hd HG HPk).
        - rewrite (dict_list (gen_fam Equal Hash) (kv_layout P) eq_refl _ _ _ _ HG).
          by rewrite (ent_keys (gen_fam Equal Hash) (kv_layout P) eq_refl _ _ _ _ HG).
        - intros Habs. destruct Hfree as [[a Ha']|Hfree]; [|done]. exfalso.
          eapply Habs. by apply (dict_some (gen_fam Equal Hash) (kv_layout P) eq_refl _ _ _ _ _ _ HG) in Ha'. }
      destruct op as [s|h k v|h k f|h k|h k|h k|h k|h|h|h f|p|p v]; try exact I.
      * apply (Hx false); [apply Ha|apply Ha|exact Hg].
      * apply (Hx true); [apply Ha|apply Ha|exact Hg].
Qed.

Lemma eset_kv {U C} fuel `{HK : Countable K} (api : setapi K unit K (U * C)) bad dig ok : 256 <= fuel ->
  eset_type fuel api bad dig ok ->
  ∃ (api' : setapi K unit K U) HS (F : fam K HS unit K U) P0 fit,
    spack_of F (kv_layout P0) 256 api' dig ok /\ seti_rel bad fit api api' /\
    ∀ Q u0 tr σ w op, sspec dig u0 tr σ -> RefineSet.Rel F (kv_layout P0) Q w σ -> ok tr op -> sop_fit fit op w.
Proof.
  intros Hfuel. destruct 1 as [K E0 C0 sum64 keq KeyBytes P Q keq' KeyBytes' Hd He Hk|K E0 C0 Equal Hash P Q Equal' Hash' Hd He Hh].
  - exists (ArrSet_api sum64 256 keq KeyBytes), mhash, (arr_fam sum64 keq KeyBytes), P, (λ _ _ _, True). split; [|split].
    + pose proof (kv_alike (U:=U) sum64 KeyBytes unit _ P (keq_eq _ _ Hd)) as HA.
      eapply (SPackOf _ _ _ _ _ _ (arr_fam sum64 keq KeyBytes) Q (add_op (arr_fam sum64 keq KeyBytes) tt) any_way true); try done.
      * apply kv_fam_ok.
      * apply (kv_laws (U:=U) sum64 KeyBytes unit _ P (keq_eq _ _ Hd)).
      * apply kv_dig.
      * apply kv_goodway.
      * intros tr op [Ho Hg]. split; [exact Ho|]. destruct op; simpl in *; auto.
    + pose proof (arr_rel (V:=unit) (U:=U) sum64 keq KeyBytes keq' KeyBytes' He Hk) as HR.
      constructor; intros.
      * apply (d_einsert _ _ _ _ _ HR); [by apply add_oprel|lia|lia|by apply calm_ins_all].
      * apply (d_edelete _ _ _ _ _ HR); lia.
      * apply tries_does, (t_ehas _ _ _ _ _ HR); lia.
      * by apply f_all_set.
    + intros Q0 u0 tr σ w op _ _ _. by destruct op.
  - set (dp := λ s k d, ¬ can_panic (Hash' k s (N.shiftr d 4))).
    exists (Set_api 256 Equal Hash), unit, (gen_fam Equal Hash), P, (λ h k w, calm_ins (gen_fam Equal Hash) dp 256 h k w). split; [|split].
    + eapply (SPackOf _ _ _ _ _ _ (gen_fam Equal Hash) Q (add_op (gen_fam Equal Hash) tt) (set_way Hash) true); try done.
      * apply kv_fam_ok.
      * apply gen_nib.
      * by apply gen_alike.
      * apply (gen_goodway Equal).
      * intros tr op [Ho Hg]. split; [exact Ho|]. destruct op; simpl in *; try done.
        destruct Hg as [Hg|Hg]; [by left|right]. intros s Hs k' Hk'. by destruct (Hg s Hs k' Hk') as (H1 & H2 & _).
    + pose proof (gen_rel (V:=unit) (U:=U) false Equal Hash Equal' Hash' He Hh) as HR.
      constructor; intros.
      * apply (d_einsert _ _ _ _ _ HR); [by apply add_oprel|lia|lia|assumption].
      * apply (d_edelete _ _ _ _ _ HR); lia.
      * apply tries_does, (t_ehas _ _ _ _ _ HR); lia.
      * by apply f_all_set.
    + intros Q0 u0 tr σ w op Hs HR [Ha Hg].
      destruct op as [s|h k|h k|h k|h|h|h f]; try exact I.
      destruct Ha as [[s Hn] HPk]. destruct (sspec_live (gdigit Hash) u0 tr σ Hs _ _ Hn) as [[s' X] HX].
      destruct (sspec_stored (gdigit Hash) u0 tr σ Hs _ _ _ HX) as [-> Hin].
      destruct (RefineSet.Rel_handle _ _ _ _ _ h HR (ex_intro _ _ HX)) as (G & s1 & T & _ & _ & _ & HG & _ & Hm' & _).
      rewrite HX in Hm'. injection Hm' as <- HX'.
      apply (gen_calm false Equal Hash Hash' P s' w h T k (elements (sstored tr h)) Hd HG HPk).
      * rewrite HX'. by eapply keys_list.
      * intros Habs. destruct Hg as [Hg|Hg]; [|by apply Hg]. exfalso. rewrite HX' in Hg.
        apply keys_in in Hg as [p Hp]. by apply Habs in Hp.
Qed.

(** ** Executions *)
Lemma near_erase {V CK U C} (w w' : world V CK (U * C)) : near w w' -> nearw (erase w) (erase w').
Proof. done. Qed.

(** What an execution leaves behind, and what the next call does. *)
Lemma memrun_kv {V U C} (zero : V) fuel (u0 : U) (c0 : C) `{HK : Countable K} (api : mapapi K V K (U * C)) bad dig ok : 256 <= fuel ->
  emap_type zero fuel api bad dig ok ->
  ∃ (api' : mapapi K V K U) HS (F : fam K HS V K U) P0 Q fit, mapi_rel bad fit api api' /\
  ∀ tr w, memrun api ok u0 c0 tr w ->
  ∃ σ, mspec dig zero u0 tr σ /\ Refine.Rel F (kv_layout P0) Q (erase w) σ /\
    ∀ op, ok tr op -> op_fit fit op (erase w) /\
      ∃ res w' σ', mcall api' op (erase w) = Ret res w' /\ mstep dig zero σ op res σ' /\ Refine.Rel F (kv_layout P0) Q w' σ'.
Proof.
  intros Hfuel Ht. destruct (emap_kv zero fuel api bad dig ok Hfuel Ht) as (api' & HS & F & P0 & fit & Hpack & Hrel & Hfit).
  destruct Hpack. exists api', HS, F, P0, Q, fit. split; [done|].
  assert (Rs : ∀ tr w σ op, mspec dig zero u0 tr σ -> Refine.Rel F (kv_layout P0) Q w σ -> ok tr op -> op_fit fit op w /\
    ∃ res w' σ', mcall api' op w = Ret res w' /\ mstep dig zero σ op res σ' /\ Refine.Rel F (kv_layout P0) Q w' σ').
  { intros tr1 w1 σ op Hs HR Ho. split; [by eapply Hfit|].
    destruct (Refine.rel_step F (kv_layout P0) Q HF HL Hcell zero 256 (le_n 256) dig Hdig FS FM sop mdop vs WS WM
      HFS HFM HWS HWM Hvs Hsop Hmop api' HSet HMod HDel HGet HVal HPtr HAll ok u0 Hok tr1 w1 σ op Hs HR Ho)
      as (res & w' & σ' & Hc & Hst & HR' & _). by exists res, w', σ'. }
  intros tr w Hr. assert (∃ σ, mspec dig zero u0 tr σ /\ Refine.Rel F (kv_layout P0) Q (erase w) σ) as (σ & Hs & HR).
  { induction Hr as [|tr w op res w' Hr IH Ho Hc|tr w op w' Hr IH Ho Hc].
    - exists (minit u0). split; [constructor|apply Refine.Rel_init].
    - destruct IH as (σ & Hs & HR). destruct (Rs tr _ σ op Hs HR Ho) as (Hf & res' & x & σ' & Hc' & Hst & HR').
      pose proof (mcall_rel bad fit api api' op w Hrel Hf) as Hd. unfold does_at in Hd. rewrite Hc', Hc in Hd.
      destruct Hd as [(a & w1 & [= <- <-] & <- & ->)|(_ & w1 & [=] & _)]. exists σ'. split; [by econstructor|done].
    - destruct IH as (σ & Hs & HR). destruct (Rs tr _ σ op Hs HR Ho) as (Hf & res' & x & σ' & Hc' & Hst & HR').
      pose proof (mcall_rel bad fit api api' op w Hrel Hf) as Hd. unfold does_at in Hd. rewrite Hc', Hc in Hd.
      destruct Hd as [(a & w1 & [=] & _)|(_ & w1 & [= <-] & Hn)]. exists σ. split; [done|]. eapply nearly_Rel; [|exact HR]. by apply near_erase. }
  exists σ. split; [done|]. split; [done|]. intros op Ho. by eapply Rs.
Qed.

Section mruns.
Context {V U C : Type} (zero : V) (fuel : nat) (Hfuel : 256 <= fuel) (u0 : U) (c0 : C).
Context `{Countable K} (api : mapapi K V K (U * C)) (bad : Prop) (dig : N -> K -> nat -> N)
  (ok : list (mop K V U * mres V) -> mop K V U -> Prop) (Ht : emap_type zero fuel api bad dig ok).

Lemma memrun_all tr w : memrun api ok u0 c0 tr w ->
  (∃ σ, mspec dig zero u0 tr σ /\ ms_usr σ = (w_usr w).1) /\
  (∀ s h, (MNew s, RHandle h) ∈ tr -> ∃ rt, w_mem w !! h = Some (BRoot rt) /\ rt_seed rt = s) /\
  ∀ op, ok tr op ->
    ((∃ res w', mcall api (emap_op op) w = Ret res w') \/
     (bad /\ ∃ w', mcall api (emap_op op) w = Panic w' /\ (w_usr w').1 = (w_usr w).1)) /\
    (match op with MNew _ | MLen _ | MDep _ | MAll _ _ | MLoad _ | MStore _ _ => True | _ => False end ->
     ∃ res w', mcall api (emap_op op) w = Ret res w').
Proof.
  destruct (memrun_kv zero fuel u0 c0 api bad dig ok Hfuel Ht) as (api' & HS & F & P0 & Q & fit & Hrel & Hall).
  intros Hr. destruct (Hall tr w Hr) as (σ & Hs & HR & Hop). split; [|split].
  - exists σ. split; [done|]. by destruct HR as (G & _ & _ & _ & ->).
  - intros s h Hin. destruct (ObserveFacts.mspec_new _ _ _ _ _ Hs _ _ Hin) as [m Hm].
    destruct (Refine.Rel_handle _ _ _ _ _ h HR (ex_intro _ _ Hm)) as (G & s' & T & _ & _ & _ & HG & _ & Hm' & _).
    rewrite Hm in Hm'. injection Hm' as <- _. exact (load_seed _ _ _ _ (erase w) _ _ HG).
  - intros op Ho. destruct (Hop op Ho) as (Hf & res' & x & σ' & Hc' & Hst & HR'). split.
    + pose proof (mcall_rel bad fit api api' op w Hrel Hf) as Hd. unfold does_at in Hd. rewrite Hc' in Hd.
      destruct Hd as [(a & w1 & E & _)|(Hb & w1 & E & Hn)]; [left; eauto|right]. split; [done|]. exists w1. split; [done|]. apply Hn.
    + intros Hk. pose proof (mcall_keyless bad fit api api' op Hrel Hk w) as Hd. rewrite Hc' in Hd.
      destruct Hd as (a & w1 & E & _). eauto.
Qed.
End mruns.

Lemma semrun_kv {U C} fuel (u0 : U) (c0 : C) `{HK : Countable K} (api : setapi K unit K (U * C)) bad dig ok : 256 <= fuel ->
  eset_type fuel api bad dig ok ->
  ∃ (api' : setapi K unit K U) HS (F : fam K HS unit K U) P0 Q fit, seti_rel bad fit api api' /\
  ∀ tr w, semrun api ok u0 c0 tr w ->
  ∃ σ, sspec dig u0 tr σ /\ RefineSet.Rel F (kv_layout P0) Q (erase w) σ /\
    ∀ op, ok tr op -> sop_fit fit op (erase w) /\
      ∃ res w' σ', scall api' op (erase w) = Ret res w' /\ sstep dig σ op res σ' /\ RefineSet.Rel F (kv_layout P0) Q w' σ'.
Proof.
  intros Hfuel Ht. destruct (eset_kv fuel api bad dig ok Hfuel Ht) as (api' & HS & F & P0 & fit & Hpack & Hrel & Hfit).
  destruct Hpack. exists api', HS, F, P0, Q, fit. split; [done|].
  assert (Rs : ∀ tr w σ op, sspec dig u0 tr σ -> RefineSet.Rel F (kv_layout P0) Q w σ -> ok tr op -> sop_fit fit op w /\
    ∃ res w' σ', scall api' op w = Ret res w' /\ sstep dig σ op res σ' /\ RefineSet.Rel F (kv_layout P0) Q w' σ').
  { intros tr1 w1 σ op Hs HR Ho. split; [by eapply Hfit|].
    destruct (RefineSet.rel_step F (kv_layout P0) Q HF HL 256 (le_n 256) dig Hdig FA aop W dfull tt
      HFA HW Haop api' HAdd HDel HHas HAll ok u0 Hok tr1 w1 σ op Hs HR Ho)
      as (res & w' & σ' & Hc & Hst & HR' & _). by exists res, w', σ'. }
  intros tr w Hr. assert (∃ σ, sspec dig u0 tr σ /\ RefineSet.Rel F (kv_layout P0) Q (erase w) σ) as (σ & Hs & HR).
  { induction Hr as [|tr w op res w' Hr IH Ho Hc|tr w op w' Hr IH Ho Hc].
    - exists (sinit u0). split; [constructor|apply RefineSet.Rel_init].
    - destruct IH as (σ & Hs & HR). destruct (Rs tr _ σ op Hs HR Ho) as (Hf & res' & x & σ' & Hc' & Hst & HR').
      pose proof (scall_rel bad fit api api' op w Hrel Hf) as Hd. unfold does_at in Hd. rewrite Hc', Hc in Hd.
      destruct Hd as [(a & w1 & [= <- <-] & <- & ->)|(_ & w1 & [=] & _)]. exists σ'. split; [by econstructor|done].
    - destruct IH as (σ & Hs & HR). destruct (Rs tr _ σ op Hs HR Ho) as (Hf & res' & x & σ' & Hc' & Hst & HR').
      pose proof (scall_rel bad fit api api' op w Hrel Hf) as Hd. unfold does_at in Hd. rewrite Hc', Hc in Hd.
      destruct Hd as [(a & w1 & [=] & _)|(_ & w1 & [= <-] & Hn)]. exists σ. split; [done|]. eapply nearly_SRel; [|exact HR]. by apply near_erase. }
  exists σ. split; [done|]. split; [done|]. intros op Ho. by eapply Rs.
Qed.

Section sruns.
Context {U C : Type} (fuel : nat) (Hfuel : 256 <= fuel) (u0 : U) (c0 : C).
Context `{Countable K} (api : setapi K unit K (U * C)) (bad : Prop) (dig : N -> K -> nat -> N)
  (ok : list (sop K U * sres) -> sop K U -> Prop) (Ht : eset_type fuel api bad dig ok).

Lemma semrun_all tr w : semrun api ok u0 c0 tr w ->
  (∃ σ, sspec dig u0 tr σ /\ ss_usr σ = (w_usr w).1) /\
  (∀ s h, (SNew s, THandle h) ∈ tr -> ∃ rt, w_mem w !! h = Some (BRoot rt) /\ rt_seed rt = s) /\
  ∀ op, ok tr op ->
    ((∃ res w', scall api (eset_op op) w = Ret res w') \/
     (bad /\ ∃ w', scall api (eset_op op) w = Panic w' /\ (w_usr w').1 = (w_usr w).1)) /\
    (match op with SNew _ | SLen _ | SDep _ | SAll _ _ => True | _ => False end ->
     ∃ res w', scall api (eset_op op) w = Ret res w').
Proof.
  destruct (semrun_kv fuel u0 c0 api bad dig ok Hfuel Ht) as (api' & HS & F & P0 & Q & fit & Hrel & Hall).
  intros Hr. destruct (Hall tr w Hr) as (σ & Hs & HR & Hop). split; [|split].
  - exists σ. split; [done|]. by destruct HR as (G & _ & _ & ->).
  - intros s h Hin. destruct (ObserveSet.sspec_new _ _ _ _ Hs _ _ Hin) as [m Hm].
    destruct (RefineSet.Rel_handle _ _ _ _ _ h HR (ex_intro _ _ Hm)) as (G & s' & T & _ & _ & _ & HG & _ & Hm' & _).
    rewrite Hm in Hm'. injection Hm' as <- _. exact (load_seed _ _ _ _ (erase w) _ _ HG).
  - intros op Ho. destruct (Hop op Ho) as (Hf & res' & x & σ' & Hc' & Hst & HR'). split.
    + pose proof (scall_rel bad fit api api' op w Hrel Hf) as Hd. unfold does_at in Hd. rewrite Hc' in Hd.
      destruct Hd as [(a & w1 & E & _)|(Hb & w1 & E & Hn)]; [left; eauto|right]. split; [done|]. exists w1. split; [done|]. apply Hn.
    + intros Hk. pose proof (scall_keyless bad fit api api' op Hrel Hk w) as Hd. rewrite Hc' in Hd.
      destruct Hd as (a & w1 & E & _). eauto.
Qed.
End sruns.
