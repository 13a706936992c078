(** Programs with nested callbacks do on the model what the calculus of Nested.v
    says. *)
From Coq Require Import Sorted.
From stdpp Require Import base numbers list gmap.
From Verif Require Import GoInt Mem Hash Amt Families BitsFacts Steps Tree Rep Paths Descend Insert Split Delete Remove Core Scan Order Heap Spec SpecFacts HashFacts Guards Client Types Refine Programs ProgramFacts Nested.
Local Open Scope nat_scope.

(** ** Hiding maps from a state *)
Section hide.
Context `{Countable K} {V U : Type} (dig : N -> K -> nat -> N) (zero : V).
Local Notation mstate := (mstate K V U).
Implicit Types (σ : mstate) (A : gset positive) (h : positive).

Definition hide A σ : mstate :=
  MState (filter (λ x : positive * (N * gmap K positive), x.1 ∉ A) (ms_map σ)) (ms_val σ) (ms_usr σ).
Global Arguments hide : simpl never.

Lemma hide_in A σ h : h ∈ A -> ms_map (hide A σ) !! h = None.
Proof. intros Hh. unfold hide. simpl. apply map_filter_lookup_None. right. intros x _ Hn. by apply Hn. Qed.
Lemma hide_out A σ h : h ∉ A -> ms_map (hide A σ) !! h = ms_map σ !! h.
Proof.
  intros Hh. unfold hide. simpl. destruct (ms_map σ !! h) as [x|] eqn:E.
  - by apply map_filter_lookup_Some.
  - apply map_filter_lookup_None. by left.
Qed.
Lemma hide_some A σ h x : ms_map (hide A σ) !! h = Some x -> h ∉ A /\ ms_map σ !! h = Some x.
Proof. unfold hide. simpl. intros Hx. by apply map_filter_lookup_Some in Hx as [? ?]. Qed.
Lemma hide_eq A σ σ1 : (∀ h, h ∈ A -> ms_map σ1 !! h = None) -> (∀ h, h ∉ A -> ms_map σ !! h = ms_map σ1 !! h) ->
  ms_val σ = ms_val σ1 -> ms_usr σ = ms_usr σ1 -> hide A σ = σ1.
Proof.
  destruct σ1 as [m1 v1 u1]. simpl. intros Hin Hout Hv Hu. unfold hide. f_equal; [|done..].
  apply map_eq. intros h. destruct (decide (h ∈ A)) as [Hh|Hh].
  - rewrite (Hin h Hh). by apply (hide_in A σ).
  - rewrite <- (Hout h Hh). by apply (hide_out A σ).
Qed.
Lemma hide_none σ : hide ∅ σ = σ.
Proof. apply hide_eq; [set_solver|done..]. Qed.

Lemma hide_value A σ h k : h ∉ A -> value (hide A σ) h k = value σ h k.
Proof. intros Hh. unfold value. rewrite (hide_out A σ h Hh). done. Qed.

Lemma hide_put A σ h k v u σ1 : h ∉ A -> put (hide A σ) h k v u σ1 ->
  ∃ σ', put σ h k v u σ' /\ hide A σ' = σ1 /\ ∀ h', is_Some (ms_map σ' !! h') -> is_Some (ms_map σ !! h').
Proof.
  intros Hh (s & m & Hm & Hx). rewrite (hide_out A σ h Hh) in Hm.
  destruct (m !! k) as [p|] eqn:E.
  - exists (MState (ms_map σ) (<[p := v]> (ms_val σ)) u). split_and!; [|by subst σ1|done].
    exists s, m. by rewrite E.
  - destruct Hx as (p & Hp & ->). exists (MState (<[h := (s, <[k := p]> m)]> (ms_map σ)) (<[p := v]> (ms_val σ)) u). split_and!.
    + exists s, m. rewrite E. eauto.
    + apply hide_eq; simpl; try done.
      * intros h' Hh'. rewrite lookup_insert_ne by set_solver. by apply (hide_in A σ).
      * intros h' Hh'. destruct (decide (h' = h)) as [->|Hne]; [by rewrite !lookup_insert|].
        rewrite !lookup_insert_ne by done. symmetry. by apply (hide_out A σ).
    + intros h' Hx. simpl in Hx. destruct (decide (h' = h)) as [->|Hne]; [by rewrite Hm|].
      by rewrite lookup_insert_ne in Hx.
Qed.

Lemma hide_step A σ op r σ1 : mstep dig zero (hide A σ) op r σ1 -> (∀ h, uses op h -> h ∉ A) ->
  (∀ h, r = RHandle h -> h ∉ A /\ ms_map σ !! h = None) ->
  ∃ σ', mstep dig zero σ op r σ' /\ hide A σ' = σ1 /\
    ∀ h, is_Some (ms_map σ' !! h) -> is_Some (ms_map σ !! h) \/ is_Some (ms_map σ1 !! h).
Proof.
  intros Hst Hu Hn. destruct op as [s|h k v|h k f|h k|h k|h k|h k|h|h|h f|p|p v]; cbn [mstep uses] in Hst, Hu.
  - destruct Hst as (h & -> & _ & ->). destruct (Hn h eq_refl) as [HA Hno].
    exists (MState (<[h := (s, ∅)]> (ms_map σ)) (ms_val σ) (ms_usr σ)). split; [by exists h|]. split.
    + apply hide_eq; simpl; try done.
      * intros h' Hh'. rewrite lookup_insert_ne by set_solver. by apply (hide_in A σ).
      * intros h' Hh'. destruct (decide (h' = h)) as [->|Hne]; [by rewrite !lookup_insert|].
        rewrite !lookup_insert_ne by done. symmetry. by apply (hide_out A σ).
    + intros h' Hx. simpl in Hx |- *. destruct (decide (h' = h)) as [->|Hne].
      * right. rewrite lookup_insert. eauto.
      * left. by rewrite lookup_insert_ne in Hx.
  - destruct Hst as (-> & Hp). destruct (hide_put A σ h k v _ σ1 (Hu h eq_refl) Hp) as (σ' & H1 & H2 & H3).
    exists σ'. split_and!; [by split|done|by left; apply H3].
  - destruct Hst as (-> & Hp). rewrite (hide_value A σ h k (Hu h eq_refl)) in Hp. simpl.
    change (ms_usr (hide A σ)) with (ms_usr σ) in Hp.
    destruct (f (ms_usr σ) (default zero (value σ h k)) (bool_decide (is_Some (value σ h k)))) as [u v].
    destruct (hide_put A σ h k v u σ1 (Hu h eq_refl) Hp) as (σ' & H1 & H2 & H3).
    exists σ'. split_and!; [done|done|done|by left; apply H3].
  - destruct Hst as (-> & s & m & Hm & ->). rewrite (hide_out A σ h (Hu h eq_refl)) in Hm.
    exists (MState (<[h := (s, base.delete k m)]> (ms_map σ)) (ms_val σ) (ms_usr σ)). split; [split; [done|]; by exists s, m|]. split.
    + pose proof (Hu h eq_refl) as HA. apply hide_eq; simpl; try done.
      * intros h' Hh'. rewrite lookup_insert_ne by set_solver. by apply (hide_in A σ).
      * intros h' Hh'. destruct (decide (h' = h)) as [->|Hne]; [by rewrite !lookup_insert|].
        rewrite !lookup_insert_ne by done. symmetry. by apply (hide_out A σ).
    + intros h' Hx. left. simpl in Hx. destruct (decide (h' = h)) as [->|Hne]; [by rewrite Hm|].
      by rewrite lookup_insert_ne in Hx.
  - destruct Hst as (-> & Hh & ->). exists σ. rewrite (hide_out A σ h (Hu h eq_refl)) in Hh.
    rewrite (hide_value A σ h k (Hu h eq_refl)). split_and!; eauto. done.
  - destruct Hst as (-> & Hh & ->). exists σ. rewrite (hide_out A σ h (Hu h eq_refl)) in Hh.
    rewrite (hide_value A σ h k (Hu h eq_refl)). split_and!; eauto. done.
  - destruct Hst as (-> & Hh). rewrite (hide_out A σ h (Hu h eq_refl)) in Hh. exists σ. split_and!; eauto. done.
  - destruct Hst as (-> & Hh). rewrite (hide_out A σ h (Hu h eq_refl)) in Hh. exists σ. split_and!; eauto. done.
  - destruct Hst as (-> & Hh). rewrite (hide_out A σ h (Hu h eq_refl)) in Hh. exists σ. split_and!; eauto. done.
  - destruct Hst as (-> & s & m & es & Hm & He & Ho & ->). rewrite (hide_out A σ h (Hu h eq_refl)) in Hm.
    eexists (MState (ms_map σ) _ _). split; [split; [done|]; by exists s, m, es|]. split; [done|]. by left.
  - destruct Hst as (-> & Hp). exists σ. split_and!; eauto. done.
  - destruct Hst as (-> & Hp & ->). exists (MState (ms_map σ) (<[p := v]> (ms_val σ)) (ms_usr σ)).
    split; [done|]. split; [done|]. by left.
Qed.

(** A call leaves the keys of all other maps alone. *)
Lemma step_rekeyed σ op r σ' h : mstep dig zero σ op r σ' -> h ∉ rekeyed σ op -> is_Some (ms_map σ !! h) ->
  ms_map σ' !! h = ms_map σ !! h.
Proof.
  assert (Hput : ∀ h' k v u, put σ h' k v u σ' -> h ∉ (if stored_in σ h' k then ∅ else {[h']} : gset positive) ->
    ms_map σ' !! h = ms_map σ !! h).
  { intros h' k v u (s & m & Hm & Hx). unfold stored_in. rewrite Hm. destruct (m !! k); [by subst σ'|].
    destruct Hx as (p & _ & ->). intros Hn. simpl. rewrite lookup_insert_ne; [done|]. set_solver. }
  destruct op as [s|h' k v|h' k f|h' k|h' k|h' k|h' k|h'|h'|h' f|p|p v]; simpl; intros Hst Hn Hs.
  - destruct Hst as (h' & _ & Hno & ->). simpl. rewrite lookup_insert_ne; [done|]. intros ->. by destruct Hs; congruence.
  - destruct Hst as [_ Hp]. by eapply Hput.
  - destruct Hst as [_ Hp]. destruct (f _ _ _). by eapply Hput.
  - destruct Hst as (_ & s & m & Hm & ->). simpl. destruct (decide (h = h')) as [->|Hne]; [|by rewrite lookup_insert_ne].
    rewrite lookup_insert, Hm. unfold stored_in in Hn. rewrite Hm in Hn. destruct (m !! k) eqn:E; [set_solver|].
    by rewrite delete_notin.
  - by destruct Hst as [-> _].
  - by destruct Hst as [-> _].
  - by destruct Hst as [-> _].
  - by destruct Hst as [-> _].
  - by destruct Hst as [-> _].
  - destruct Hst as (_ & s & m & es & _ & _ & _ & ->). done.
  - by destruct Hst as [-> _].
  - by destruct Hst as (_ & _ & ->).
Qed.
Lemma step_handle σ op h σ' : mstep dig zero σ op (RHandle h) σ' -> ∃ s, op = MNew s.
Proof.
  destruct op as [s|h' k v|h' k f|h' k|h' k|h' k|h' k|h'|h'|h' f|p|p v]; simpl; intros Hst; [by exists s|..]; exfalso.
  1-3: by destruct Hst.
  1-2: by destruct Hst as (_ & _ & ?).
  1-3: by destruct Hst as (_ & s & m & _ & ?).
  - by destruct Hst.
  - by destruct Hst as (_ & v & _ & ?).
  - by destruct Hst.
Qed.
End hide.

Section sim.
Context `{Countable K} {HS V CK U : Type}.
Variables (F : fam K HS V CK U) (L : layout K V CK) (Q : N -> Prop).
Local Notation D := 240.
Local Notation world := (world V CK U).
Local Notation M := (M V CK U).
Local Notation tree := (tree K).
Local Notation heap := (gmap loc (N * tree)).
Local Notation mstate := (mstate K V U).
Local Notation mop := (mop K V U).
Implicit Types (w : world) (T : tree) (k : K) (h : loc) (s : N) (v : V) (u : U) (G : heap) (σ : mstate) (A : gset positive).
Hypothesis HF : fam_ok F L.
Hypothesis HL : laws F L.
Hypothesis Hcell : ly_cell L = true.
Variables (zero : V) (fuel : nat).
Hypothesis Hfuel : 256 <= fuel.
Variable dig : N -> K -> nat -> N.
Hypothesis Hdig : ∀ s k d, nib F s k d = dig s k d.
Variables (FS FM : fam K HS V CK U) (sop : K -> V -> insop V CK U)
  (mdop : K -> (ptr -> bool -> M unit) -> insop V CK U) (vs : V -> V) (WS WM : N -> K -> K -> nat -> Prop).
Hypothesis HFS : alike F L FS.
Hypothesis HFM : alike F L FM.
Hypothesis HWS : goodway L dig FS WS.
Hypothesis HWM : goodway L dig FM WM.
Hypothesis Hvs : ∀ s k ck d, WS s k ck d -> ∀ v, vs v = v.
Hypothesis Hsop : ∀ k v, io_found (sop k v) = (λ iv, store_val (lk_ptr iv) v) /\
  io_new (sop k v) = cellnew L v k /\ io_split (sop k v) = cellnew L (vs v) k.
Hypothesis Hmop : ∀ k f,
  io_found (mdop k f) = (λ iv, match lk_ptr iv with Nil => panic | At p => f (At p) true end) /\
  io_new (mdop k f) = modnew L zero k f /\ io_split (mdop k f) = modnew L zero k f.
Hypothesis Hearly : ∀ k f, io_early (mdop k f) = true.
Variable api : mapapi K V CK U.
Hypothesis HSet : ∀ (oh : option loc) k v, ma_Set api oh k v = insert FS (sop k v) fuel oh k.
Hypothesis HMod : ∀ (oh : option loc) k f, ma_Mod api oh k f = insert FM (mdop k f) fuel oh k.
Hypothesis HDel : ∀ (oh : option loc) k, ma_Del api oh k = delete F fuel oh k.
Hypothesis HGet : ∀ (oh : option loc) k, ma_Get api oh k = get F fuel zero oh k.
Hypothesis HVal : ∀ (oh : option loc) k, ma_Val api oh k = val F fuel zero oh k.
Hypothesis HPtr : ∀ (oh : option loc) k, ma_Ptr api oh k = ptr_of F fuel oh k.
Hypothesis HAll : ∀ (oh : option loc) f, ma_All api oh f = all_map F fuel oh f.
Local Notation Good s := (Good F L D s).
Local Notation Inv := (Inv F L D Q).
Local Notation RelG := (RelG F L Q).
Local Notation confined := (confined (K:=K)).

(** The maps in A are out of reach. *)
Definition RelA A G w σ : Prop :=
  RelG G w (hide A σ) /\ ∀ h, h ∈ A \/ is_Some (ms_map σ !! h) -> (h < w_nxt w)%positive.

Lemma RelA_init u : RelA ∅ ∅ (empty_world u) (minit u).
Proof.
  split.
  - rewrite hide_none. destruct (Rel_init F L Q u) as [G HG].
    assert (G = ∅) as <-; [|done]. destruct HG as (_ & Hm & _). simpl in Hm. symmetry in Hm. by apply fmap_empty_inv in Hm.
  - intros h [Hh|[x Hh]]; [by apply elem_of_empty in Hh|]. simpl in Hh. by rewrite lookup_empty in Hh.
Qed.
Lemma RelA_own A G w σ u : RelA A G w σ -> RelA A G (World (w_mem w) (w_nxt w) u) (MState (ms_map σ) (ms_val σ) u).
Proof. intros [(HI & Hm & Hv & Hu) Hn]. split; [|done]. split_and!; try done. by apply Inv_usr. Qed.

Lemma RelA_handle A G w σ h s m : RelA A G w σ -> h ∉ A -> ms_map σ !! h = Some (s, m) ->
  ∃ T, Inv w G /\ G !! h = Some (s, T) /\ Q s /\ Good s w h T /\ m = dict T /\ ms_val σ = vals w /\ ms_usr σ = w_usr w.
Proof.
  intros [HR _] HA Hm. pose proof Hm as Hm'. rewrite <- (hide_out A σ h HA) in Hm'.
  destruct (RelG_handle F L Q _ _ _ h HR) as (s' & T & HI & HG & HQ & Hgd & _ & Hmh & Hv & Hu); [eauto|].
  rewrite Hmh in Hm'. injection Hm' as -> <-. exists T. done.
Qed.

Lemma RelA_gone A G w σ h : RelA A G w σ -> h ∈ A -> G !! h = None.
Proof.
  intros [(HI & Hm & _) _] HA. pose proof (hide_in A σ h HA) as Hx. rewrite Hm, lookup_fmap in Hx.
  by destruct (G !! h).
Qed.

(** ** Calls *)
Variable P : K -> Prop.
Hypothesis HP : ∀ k, P k -> ly_ok L k.

Lemma may_can A σ op : may P Q (free dig WS) (free dig WM) σ op -> (∀ h, uses op h -> h ∉ A) -> can L Q dig WS WM (hide A σ) op.
Proof.
  intros Hm Hu.
  assert (Hfits : ∀ W h k, h ∉ A -> may_add (free dig W) σ h k -> is_Some (ms_map (hide A σ) !! h) /\ fits dig W (hide A σ) h k).
  { intros W h k HA (s & m & E & Hx). rewrite <- (hide_out A σ h HA) in E. split; [by rewrite E|]. by exists s, m. }
  destruct op as [s|h k v|h k f|h k|h k|h k|h k|h|h|h f|p|p v]; cbn [may can uses] in *; try done.
  1-2: destruct Hm as [Hk Hx]; destruct (Hfits _ _ _ (Hu h eq_refl) Hx); auto.
  1-4: destruct Hm as [Hk Hx]; rewrite hide_out by auto; auto.
  all: rewrite hide_out by auto; auto.
Qed.

Lemma call_sim A G w σ op : RelA A G w σ -> may P Q (free dig WS) (free dig WM) σ op -> (∀ h, uses op h -> h ∉ A) ->
  ∃ r w' σ' G', mcall api op w = Ret r w' /\ mstep dig zero σ op r σ' /\ RelA A G' w' σ' /\
    confined (rebuilds σ op) G w G' w' /\
    ∀ h, h ∉ rekeyed σ op -> is_Some (G !! h) -> G' !! h = G !! h.
Proof.
  intros [HR Hn] Hmay Hu. pose proof (may_can A σ op Hmay Hu) as Hcan.
  destruct (step_okF F L Q HF HL Hcell zero fuel Hfuel dig Hdig FS FM sop mdop vs WS WM
    HFS HFM HWS HWM Hvs Hsop Hmop api HSet HMod HDel HGet HVal HPtr HAll G w (hide A σ) op HR Hcan)
    as (r & w' & σ1 & G' & Hc & Hst & HR' & Hon & Hfr).
  assert (Hlt : ∀ h, is_Some (ms_map σ1 !! h) -> (h < w_nxt w')%positive).
  { intros h Hx. destruct (RelG_handle F L Q _ _ _ h HR' Hx) as (s & T & HI & _ & _ & HG & _).
    eapply foot_lt; [apply HI|exact HG|]. unfold foot. set_solver +. }
  assert (Hnew : ∀ h, r = RHandle h -> h ∉ A /\ ms_map σ !! h = None).
  { intros h ->. destruct (step_handle _ _ _ _ _ _ Hst) as [s ->]. cbn [mstep] in Hst.
    destruct Hst as (h' & [= <-] & Hno & ->).
    destruct HR as (HI & Hm & _). pose proof HR' as (HI' & Hm' & _).
    assert (Hge : (w_nxt w <= h)%positive).
    { destruct (decide (h < w_nxt w)%positive) as [Hh|]; [|lia]. exfalso.
      destruct Hfr as [_ Hfr]. destruct (Hfr h Hh) as [_ Hback]; [done|].
      assert (Hx : ms_map (MState (<[h := (s, ∅)]> (ms_map (hide A σ))) (ms_val (hide A σ)) (ms_usr (hide A σ))) !! h = Some (s, ∅)).
      { simpl. apply lookup_insert. }
      rewrite Hm', lookup_fmap in Hx. destruct (G' !! h) as [[s' T]|] eqn:E; [|done].
      assert (HG : G !! h = Some (s', T)) by (eapply Hback; [done|unfold foot; set_solver +]).
      rewrite Hm, lookup_fmap, HG in Hno. done. }
    split.
    - intros HA. specialize (Hn h (or_introl HA)). lia.
    - destruct (ms_map σ !! h) as [x|] eqn:E; [|done]. exfalso. specialize (Hn h). rewrite E in Hn. specialize (Hn (or_intror (ex_intro _ x eq_refl))). lia. }
  destruct (hide_step dig zero A σ op r σ1 Hst Hu Hnew) as (σ' & Hst' & <- & Hdom).
  exists r, w', σ', G'. split; [done|]. split; [done|]. split.
  - split; [done|]. pose proof (proj1 Hfr) as Hle. intros h [Hh|Hh].
    + specialize (Hn h (or_introl Hh)). lia.
    + destruct (Hdom h Hh) as [Hx|Hx]; [|by apply Hlt]. specialize (Hn h (or_intror Hx)). lia.
  - split.
    + refine (confined_mono _ _ _ _ _ _ _ Hfr). intros h Hx.
      destruct op as [s|h' k v|h' k f|h' k|h' k|h' k|h' k|h'|h'|h' f|p|p v]; try done; cbn [touches rebuilds uses] in *;
        destruct Hx as [-> Hx]; (split; [done|]); intros (s & m & E & [x Hk]); specialize (Hx s m);
        rewrite hide_out in Hx by auto; specialize (Hx E); congruence.
    + intros h Hh [[s T] HG].
      assert (Hx : ms_map (hide A σ) !! h = Some (s, dict T)).
      { destruct HR as (_ & Hm & _). rewrite Hm, lookup_fmap, HG. done. }
      eapply (Hon h _ Hx). apply hide_some in Hx as [HA Hx].
      rewrite hide_out by done. rewrite (step_rekeyed dig zero σ op r σ' h Hst' Hh); eauto.
Qed.

(** ** All *)
Lemma all_entries (I : list (K * positive) -> world -> Prop) w h s T (do : K -> ptr -> M bool) :
  (∀ es w, I es w -> ∃ G, Inv w G /\ G !! h = Some (s, T)) ->
  (∀ k a es w w', I ((k, a) :: es) w -> do k (At a) w = Ret true w' -> I es w') ->
  I (ent T) w ->
  ma_All api (Some h) do w = (_ <- walk (λ e, do e.1 (At e.2)) (ent T) ;; ret tt) w.
Proof.
  intros HIR Hstep HIw. rewrite HAll. unfold all_map.
  assert (HIgood : ∀ es w, I es w -> Good s w h T).
  { intros es w0 H0. destruct (HIR _ _ H0) as (G0 & HI0 & Hh0). by apply (in_good _ _ _ _ _ _ HI0 _ _ _ Hh0). }
  pose proof (HIgood _ _ HIw) as HG.
  assert (Hactm : ∀ k a es w, (k, At a) ∈ leaves T -> I es w -> act_map F do (ly_leaf L k (At a)) w = do k (At a) w).
  { intros k a es w0 Hin H0. pose proof (HIgood _ _ H0) as HG0.
    destruct (Good_ok _ _ _ _ _ _ _ _ _ HG0 Hin) as [Hk Hc].
    unfold act_map. rewrite (bind_Ret _ _ _ _ _ (fo_key _ _ HF k (At a) w0 Hk Hc)).
    by rewrite (fo_ptr _ _ HF). }
  set (up := λ e : K * positive, (e.1, At e.2)).
  assert (Hlv : leaves T = map up (ent T)) by (by eapply ent_leaves).
  assert (Hvis : ∀ es w, (∀ e, e ∈ es -> up e ∈ leaves T) -> I es w ->
    visits L (act_map F do) (map up es) w = walk (λ e, do e.1 (At e.2)) es w).
  { induction es as [|[k a] es IH]; intros w0 Hsub H0; [done|]. cbn [visits map walk fst snd up].
    assert (E' : act_map F do (ly_leaf L k (At a)) w0 = do k (At a) w0).
    { eapply Hactm; [|exact H0]. apply (Hsub (k, a)). left. }
    destruct (act_map F do (ly_leaf L k (At a)) w0) as [b w1| | |] eqn:E; [|by unfold bind; rewrite E, <- E'..].
    rewrite (bind_Ret _ _ _ _ _ E), (bind_Ret _ _ _ _ _ (eq_sym E')). destruct b; [|done]. apply IH.
    - intros e He. apply Hsub. by right.
    - by eapply Hstep. }
  unfold bind. erewrite (scan_steps L (act_map F do) h T (λ es w, ∃ es', es = map up es' /\ (∀ e, e ∈ es' -> up e ∈ leaves T) /\ I es' w)) with (c := []) (rest := []).
  - rewrite Hlv at 1. rewrite Hvis; [done| |done]. intros e He. rewrite Hlv. by apply elem_of_list_fmap_1.
  - intros es w0 (es' & _ & _ & H0). eapply Good_carries. by eapply HIgood.
  - intros k p es w0 w1 (es' & He & Hsub & H0) Ha. destruct es' as [|[k' a] es']; [done|]. cbn [map up fst snd] in He.
    injection He as -> -> ->. exists es'. split_and!; [done|intros e He; apply Hsub; by right|].
    eapply Hstep; [exact H0|]. rewrite <- Ha. symmetry. eapply Hactm; [|exact H0]. apply (Hsub (k', a)). left.
  - done.
  - by eapply Good_node.
  - destruct HG as [HM _]. pose proof (mi_hgt _ _ _ _ _ _ HM). lia.
  - rewrite app_nil_r. exists (ent T). split_and!; [done| |done].
    intros e He. rewrite Hlv. by apply elem_of_list_fmap_1.
Qed.

(** ** Mod *)
Lemma mod_stored A G w σ h k s m a cb : RelA A G w σ -> h ∉ A -> ms_map σ !! h = Some (s, m) -> m !! k = Some a -> ly_ok L k ->
  ma_Mod api (Some h) k cb w = cb (At a) true w.
Proof.
  intros HR HA Hm Hk Hok. destruct (RelA_handle _ _ _ _ _ _ _ HR HA Hm) as (T & HI & HGh & HQ & HG & -> & Hv & Hu).
  apply (dict_some F L Hcell _ _ _ _ _ _ HG) in Hk. pose proof HFM as (HF' & Hnib & HL').
  assert (Hre : clear FM L D s T k) by (intros Habs; by apply Habs in Hk).
  destruct (Inv_insert F L D Q le240 FM (mdop k cb) w G h s T k fuel HF' (Hnib s) HL' HI HGh Hok Hfuel Hre)
    as [(p & Hin & Hrun)|(Habs & _)]; [|by apply Habs in Hk].
  rewrite HMod, Hrun. destruct (Hmop k cb) as (-> & _). rewrite (fo_ptr _ _ HF).
  assert (p = At a) as ->; [|done].
  destruct (Good_ok _ _ _ _ _ _ _ _ _ HG Hin) as [_ Hcl]. unfold cell in Hcl. rewrite Hcell in Hcl.
  destruct Hcl as (a' & _ & -> & _). apply (dict_some F L Hcell _ _ _ _ _ _ HG) in Hin, Hk. congruence.
Qed.

Definition celled w1 k : world := World (<[w_nxt w1 := BKv zero (ly_ck L k)]> (w_mem w1)) (xO (w_nxt w1)) (w_usr w1).

Lemma mod_absent A G w σ h k s m cb : RelA A G w σ -> h ∉ A -> ms_map σ !! h = Some (s, m) -> m !! k = None -> ly_ok L k ->
  free dig WM s (map_to_list m).*1 k ->
  ∃ T w1, let a := w_nxt w1 in let wc := celled w1 k in
    let σ1 := MState (ms_map σ) (<[a := zero]> (ms_val σ)) (ms_usr σ) in
    G !! h = Some (s, T) /\ (w_nxt w <= w_nxt w1)%positive /\ ms_val σ !! a = None /\
    RelA (A ∪ {[h]}) (base.delete h G) wc σ1 /\
    (∀ l, (l < w_nxt w)%positive -> l ∉ foot h T -> keep (w_mem w) (w_mem wc) l) /\
    ((∀ k', ¬ in_way dig s (map_to_list m).*1 k k') -> RelA A G wc σ1) /\
    (∀ w2, cb (At a) false wc = Panic w2 -> ma_Mod api (Some h) k cb w = Panic w2) /\
    ∀ w2 A2 G2 σ2, cb (At a) false wc = Ret tt w2 -> RelA A2 G2 w2 σ2 -> (w_nxt wc <= w_nxt w2)%positive ->
      (∀ l, region h T w w1 l \/ l = a -> keep (w_mem wc) (w_mem w2) l /\
         ∀ h' s' T', h' ≠ h -> G2 !! h' = Some (s', T') -> l ∉ foot h' T') ->
      ∃ w' T', ma_Mod api (Some h) k cb w = Ret tt w' /\
        RelA (A2 ∖ {[h]}) (<[h := (s, T')]> G2) w'
          (MState (<[h := (s, <[k := a]> m)]> (ms_map σ2)) (ms_val σ2) (ms_usr σ2)) /\
        (w_nxt w2 <= w_nxt w')%positive /\
        (∀ l, (l < w_nxt w2)%positive -> ¬ region h T w w1 l -> keep (w_mem w2) (w_mem w') l) /\
        (∀ l, l ∈ foot h T' -> l ∈ foot h T \/ (w_nxt w <= l)%positive).
Proof.
  intros HR HA Hm Hk Hok Hfree.
  destruct (RelA_handle _ _ _ _ _ _ _ HR HA Hm) as (T & HI & HGh & HQ & HG & -> & Hv & Hu).
  pose proof HFM as (HF' & Hnib & HL').
  assert (Hks : (map_to_list (dict T)).*1 ≡ₚ map fst (leaves T)).
  { rewrite (dict_list F L Hcell _ _ _ _ HG). by rewrite (ent_keys F L Hcell _ _ _ _ HG). }
  pose proof (way_clear F L dig Hdig FM WM s w h T k _ HFM HWM Hok HG Hks (λ _, Hfree)) as Hre.
  destruct (Inv_insert_gen F L D Q le240 FM (mdop k cb) w G h s T k fuel HF' (Hnib s) HL' HI HGh Hok Hfuel Hre)
    as [(p & Hin & Hrun)|(Habs & b & w1 & Hq & Hok1 & He & Hc & Hpan & Hm2)].
  { exfalso. destruct (Good_ok _ _ _ _ _ _ _ _ _ HG Hin) as [_ Hcl]. unfold cell in Hcl. rewrite Hcell in Hcl.
    destruct Hcl as (a' & _ & -> & _). apply (dict_some F L Hcell _ _ _ _ _ _ HG) in Hin. congruence. }
  cbv zeta in *. exists T, w1.
  pose proof (qu_nxt _ _ _ Hq) as Hn1.
  assert (Hvw1 : vals w1 = vals w) by (eapply vals_quiet; [apply HI|exact Hq]).
  pose proof (newcell_ok L Hcell w1 zero k (w_usr w1) Hok1) as (Hokc & Hnc & Hkc & Hcellc & _).
  assert (Hkeepc : ∀ l, (l < w_nxt w)%positive -> l ∉ foot h T -> keep (w_mem w) (w_mem (celled w1 k)) l).
  { intros l Hl Hnf. eapply keep_trans; [apply keep_same; by apply (qu_frame _ _ _ Hq)|]. apply Hkc. lia. }
  assert (Hmk : (if b then io_new (mdop k cb) else io_split (mdop k cb)) w1
    = (cb (At (w_nxt w1)) false ;;; ret (At (w_nxt w1))) (celled w1 k)).
  { destruct (Hmop k cb) as (_ & H1 & H2). assert (modnew L zero k cb w1 = (cb (At (w_nxt w1)) false ;;; ret (At (w_nxt w1))) (celled w1 k)).
    { unfold modnew. by rewrite (bind_Ret _ _ _ _ _ (cellnew_run L zero k w1)). }
    destruct b; congruence. }
  pose proof (in_sep _ _ _ _ _ _ HI) as Hsep.
  assert (Hrel : ∀ A0 G0, (∀ h', G0 !! h' = if decide (h' ∈ A0) then None else G !! h') -> A ⊆ A0 -> (∀ h', h' ∈ A0 -> h' ∈ A \/ h' = h) ->
    Inv (celled w1 k) G0 -> RelA A0 G0 (celled w1 k) (MState (ms_map σ) (<[w_nxt w1 := zero]> (ms_val σ)) (ms_usr σ))).
  { intros A0 G0 HG0 Hsub Hsub' HI0. destruct HR as [(_ & Hmm & _) Hn]. split; [split_and!|].
    - done.
    - apply map_eq. intros h'. rewrite lookup_fmap, HG0. destruct (decide (h' ∈ A0)) as [Hin|Hin].
      + by rewrite hide_in.
      + rewrite hide_out by done. simpl. rewrite <- (hide_out A σ h') by set_solver. rewrite Hmm, lookup_fmap. done.
    - change (ms_val (hide A0 ?x)) with (ms_val x). cbn [ms_val]. unfold celled. rewrite vals_alloc, Hv, Hvw1. done.
    - change (ms_usr (hide A0 ?x)) with (ms_usr x). simpl. by rewrite Hu, (qu_usr _ _ _ Hq).
    - intros h' Hx. simpl in *. enough (h' < w_nxt w)%positive by lia. apply Hn.
      destruct Hx as [Hx|Hx]; [|by right]. destruct (Hsub' _ Hx) as [?| ->]; [by left|]. right. by rewrite Hm. }
  split_and!; try done.
  - rewrite Hv, <- Hvw1. by apply vals_fresh.
  - apply Hrel.
    + intros h'. destruct (decide (h' ∈ A ∪ {[h]})) as [Hin|Hin].
      * destruct (decide (h' = h)) as [->|Hne]; [apply lookup_delete|]. rewrite lookup_delete_ne by done.
        eapply RelA_gone; [exact HR|set_solver].
      * rewrite lookup_delete_ne by set_solver. done.
    + set_solver +.
    + set_solver +.
    + destruct HI as [Hwok Hg _]. constructor; [done| |].
      * intros h' s' T' H'. apply lookup_delete_Some in H' as [Hne H']. destruct (Hg _ _ _ H') as [HQ' HG']. split; [done|].
        eapply Good_keep; [done|]. intros l Hl. assert (l < w_nxt w)%positive by (by eapply foot_lt).
        apply Hkeepc; [done|]. intros Hl'. by eapply (Hsep h' s' T' h s T).
      * intros h1 s1 T1 h2 s2 T2 Hne H1 H2. apply lookup_delete_Some in H1 as [_ H1]. apply lookup_delete_Some in H2 as [_ H2].
        by eapply Hsep.
  - intros Hway. destruct b.
    + rewrite (He eq_refl (Hearly _ _)) in *. apply Hrel.
      * intros h'. destruct (decide (h' ∈ A)) as [Hin|Hin]; [|done]. by eapply RelA_gone.
      * done.
      * auto.
      * apply (Inv_keep F L D Q w); done.
    + exfalso. destruct (Hc eq_refl) as (q & ck & cp & Hin & Hck & Hqk).
      destruct (way_of F L dig Hdig s w h T k q ck cp _ HG Hks Hin Hqk Hck) as (Hw & _). by eapply Hway.
  - intros w2 Hcb. rewrite HMod. apply Hpan. rewrite Hmk. unfold bind. by rewrite Hcb.
  - intros w2 A2 G2 σ2 Hcb HR2 Hn2 Hpres.
    destruct HR2 as [(HI2 & Hm2' & Hv2 & Hu2) Hlt2].
    destruct (Hm2 (At (w_nxt w1)) w2 G2) as (w' & T' & Hrun & HI' & Hlv & Hq2 & Hft).
    + rewrite Hmk. by rewrite (bind_Ret _ _ _ _ _ Hcb).
    + split_and!.
      * apply HI2.
      * unfold celled in Hn2. simpl in Hn2. lia.
      * intros l Hl. destruct (Hpres l (or_introl Hl)) as [Hkl _]. eapply keep_trans; [|exact Hkl].
        apply Hkc. destruct Hl as [Hl|Hl]; [|lia]. assert (l < w_nxt w)%positive by (eapply foot_lt; [apply HI|exact HG|done]). lia.
      * unfold cell. rewrite Hcell. destruct (Hpres (w_nxt w1) (or_intror eq_refl)) as [Hkl _].
        destruct (Hkl (BKv zero (ly_ck L k))) as (b' & Hb' & Hsim); [apply lookup_insert|].
        destruct Hsim as [->|(v1 & v2 & ck & [= <- <-] & ->)]; eauto.
      * intros l Hl. apply elem_of_list_singleton in Hl as ->. lia.
    + destruct HI2 as [Ho2 Hg2 Hs2]. constructor; [done| |].
      * intros h' s' T' H'. apply lookup_delete_Some in H' as [_ H']. by apply Hg2.
      * intros h1 s1 T1 h2 s2 T2 Hne H1 H2. apply lookup_delete_Some in H1 as [_ H1]. apply lookup_delete_Some in H2 as [_ H2].
        by eapply Hs2.
    + intros h' s' T' Hne H' l Hl. split.
      * intros Hr. destruct (Hpres l (or_introl Hr)) as [_ Hx]. by eapply Hx.
      * intros Hr. apply elem_of_list_singleton in Hr. destruct (Hpres l (or_intror Hr)) as [_ Hx]. by eapply Hx.
    + assert (HG' : Good s w' h T') by (eapply (in_good _ _ _ _ _ _ HI' h); apply lookup_insert).
      exists w', T'. split; [by rewrite HMod|]. pose proof (qu_nxt _ _ _ Hq2) as Hn3. split_and!; [|done| |].
      * split; [split_and!|].
        -- done.
        -- apply map_eq. intros h'. rewrite lookup_fmap. destruct (decide (h' = h)) as [->|Hne].
           ++ rewrite hide_out by set_solver +. simpl. rewrite !lookup_insert. simpl.
              by rewrite (dict_insert F L Q Hcell _ _ _ _ _ _ _ _ HG HG' Habs Hlv).
           ++ rewrite lookup_insert_ne by done. rewrite <- lookup_fmap, <- Hm2'.
              destruct (decide (h' ∈ A2)) as [Hin|Hin]; [rewrite !hide_in by set_solver; done|].
              rewrite !hide_out by set_solver. simpl. by rewrite lookup_insert_ne.
        -- change (ms_val (hide ?B ?x)) with (ms_val x) in *. cbn [ms_val]. rewrite Hv2. symmetry. eapply vals_quiet; [apply HI2|done].
        -- change (ms_usr (hide ?B ?x)) with (ms_usr x) in *. cbn [ms_usr]. rewrite Hu2. symmetry. apply (qu_usr _ _ _ Hq2).
        -- intros h' Hx. simpl in Hx. destruct (decide (h' = h)) as [->|Hne].
           ++ eapply foot_lt; [apply HI'|exact HG'|]. unfold foot. set_solver +.
           ++ rewrite lookup_insert_ne in Hx by done. enough (h' < w_nxt w2)%positive by lia. apply Hlt2.
              destruct Hx as [Hx|Hx]; [left; set_solver|by right].
      * intros l Hl Hnr. apply keep_same. by apply (qu_frame _ _ _ Hq2).
      * intros l Hl. destruct (Hft l Hl) as [?|[Hx|[?|?]]]; [by left|right..].
        -- apply elem_of_list_singleton in Hx as ->. lia.
        -- lia.
        -- unfold celled in Hn2. simpl in Hn2. lia.
Qed.

(** ** Programs *)
(** What running a program leaves alone. *)
Definition ran (lk : gset positive) (g : mark) (G : heap) (w : world) (g' : mark) (G' : heap) (w' : world) : Prop :=
  confined (λ h, h ∉ lk) G w G' w' /\ mk_rekeyed g ⊆ mk_rekeyed g' /\
  ∀ h, h ∉ mk_rekeyed g' -> is_Some (G !! h) -> G' !! h = G !! h.

Lemma ran_refl lk g G w : ran lk g G w g G w.
Proof. split; [apply confined_refl|done]. Qed.
Lemma ran_trans lk g1 G1 w1 g2 G2 w2 g3 G3 w3 :
  ran lk g1 G1 w1 g2 G2 w2 -> ran lk g2 G2 w2 g3 G3 w3 -> ran lk g1 G1 w1 g3 G3 w3.
Proof.
  intros (f1 & s1 & k1) (f2 & s2 & k2). split; [by eapply confined_trans|]. split; [by etrans|].
  intros h Hn Hs. assert (Hn2 : h ∉ mk_rekeyed g2) by (intros Hx; by apply Hn, s2).
  rewrite k2; [by apply k1|done|]. by rewrite k1.
Qed.

Lemma rekeyed_rebuilds σ op h : h ∈ rekeyed σ op -> rebuilds σ op h.
Proof.
  assert (Hn : ∀ h' k, stored_in σ h' k = false -> ¬ has_key σ h' k).
  { intros h' k E (s & m & Hm & [a Hk]). unfold stored_in in E. by rewrite Hm, Hk in E. }
  destruct op as [s|h' k v|h' k f|h' k|h' k|h' k|h' k|h'|h'|h' f|p|p v]; cbn [rekeyed rebuilds]; try by intros ?%elem_of_empty.
  all: destruct (stored_in σ h' k) eqn:E; [try by intros ?%elem_of_empty|].
  all: try (intros ->%elem_of_singleton; auto).
  by intros ?%elem_of_empty.
Qed.

(** The state in which a program ends. *)
Definition ended (lk : gset positive) (g : mark) (G : heap) (w : world) (Φ : mark -> mstate -> Prop) w' : Prop :=
  ∃ g' σ' G', Φ g' σ' /\ RelA (mk_away g') G' w' σ' /\ ran lk g G w g' G' w'.
Definition ends {A : Type} lk g G w (Φ : A -> mark -> mstate -> Prop) (Ψ : mark -> mstate -> Prop)
    (o : outcome V CK U A) : Prop :=
  match o with
  | Ret x w' => ended lk g G w (Φ x) w'
  | Panic w' => ended lk g G w Ψ w'
  | _ => False
  end.
Lemma ended_trans lk g1 G1 w1 g2 G2 w2 Φ w3 : ran lk g1 G1 w1 g2 G2 w2 -> ended lk g2 G2 w2 Φ w3 -> ended lk g1 G1 w1 Φ w3.
Proof. intros Hr (g' & σ' & G' & HΦ & HR & Hr'). exists g', σ', G'. split; [done|]. split; [done|]. by eapply ran_trans. Qed.
Lemma ends_trans {A : Type} lk g1 G1 w1 g2 G2 w2 Φ Ψ (o : outcome V CK U A) :
  ran lk g1 G1 w1 g2 G2 w2 -> ends lk g2 G2 w2 Φ Ψ o -> ends lk g1 G1 w1 Φ Ψ o.
Proof. intros Hr. destruct o; cbn [ends]; try done; by apply ended_trans. Qed.

(** The loop of All. *)
Lemma each_sim lk h s T (run : K -> positive -> post bool -> mark -> mstate -> Prop) fin Ψ (do : K -> positive -> M bool) :
  (∀ k a Φ g σ G w, RelA (mk_away g) G w σ -> run k a Φ g σ -> ends lk g G w Φ Ψ (do k a w)) ->
  ∀ es g σ G w, RelA (mk_away g) G w σ -> G !! h = Some (s, T) -> wp_each h run fin es g σ ->
  ends lk g G w (λ _, fin) Ψ (walk (λ e, do e.1 e.2) es w).
Proof.
  intros Hrun. induction es as [|[k a] es IH]; intros g σ G w HR HG Hw; cbn [walk wp_each fst snd] in *.
  { exists g, σ, G. split; [done|]. split; [done|]. apply ran_refl. }
  pose proof (Hrun k a _ g σ G w HR Hw) as Hd. destruct (do k a w) as [go w1|w1| |] eqn:E; [|unfold bind; rewrite E; done..].
  rewrite (bind_Ret _ _ _ _ _ E). cbn [ends] in Hd. destruct go.
  - destruct Hd as (g' & σ' & G' & [Hn Hw'] & HR' & Hr). eapply ends_trans; [exact Hr|]. eapply IH; [done| |done].
    destruct Hr as (_ & _ & Hk). rewrite Hk; [done|done|]. by rewrite HG.
  - done.
Qed.

Theorem nsim {A : Type} (p : nprog K V U A) : ∀ lk Φ Ψ g σ G w, RelA (mk_away g) G w σ ->
  wp dig zero P Q (free dig WS) (free dig WM) p lk Φ Ψ g σ -> ends lk g G w Φ Ψ (nexec api p w).
Proof.
  induction p as [A x|A op c IHc|A f c IHc|A|A h k f IHf c IHc|A h f IHf c IHc|A p IHp c IHc]; intros lk Φ Ψ g σ G w HR Hwp;
    cbn [nexec wp] in *.
  - exists g, σ, G. split; [done|]. split; [done|]. apply ran_refl.
  - destruct Hwp as (Hmay & Hu & Hrb & Hc).
    destruct (call_sim _ _ _ _ _ HR Hmay Hu) as (r & w' & σ' & G' & Hcall & Hst & HR' & Hfr & Hkeep).
    rewrite (bind_Ret _ _ _ _ _ Hcall). eapply ends_trans; [|eapply IHc; [|by apply Hc]; exact HR'].
    split; [|split].
    + by refine (confined_mono _ _ _ _ _ _ _ Hfr).
    + simpl. set_solver +.
    + intros h Hh. apply Hkeep. simpl in Hh. by apply not_elem_of_union in Hh as [_ ?].
  - pose proof HR as [(_ & _ & _ & Hu) _]. change (ms_usr (hide ?B ?x)) with (ms_usr x) in Hu.
    change ((_ <- get_usr ;; _) w) with (nexec api (c (w_usr w)) (World (w_mem w) (w_nxt w) (f (w_usr w)))).
    rewrite <- Hu. eapply ends_trans; [|eapply IHc; [|exact Hwp]; apply RelA_own; exact HR].
    split; [|done]. apply confined_keep; [done|]. intros l _. by apply keep_same.
  - exists g, σ, G. split; [done|]. split; [done|]. apply ran_refl.
  - destruct Hwp as (Hk & Ha & s & m & Hm & Hwp). destruct (m !! k) as [a|] eqn:Hmk.
    + set (cb := λ q b, match q with At a => nexec api (f a b) | Nil => panic end).
      pose proof (mod_stored _ _ _ _ _ _ _ _ _ cb HR Ha Hm Hmk (HP k Hk)) as Hrun. cbn [cb] in Hrun.
      pose proof (IHf a true _ _ _ _ _ _ _ HR Hwp) as Hf.
      destruct (nexec api (f a true) w) as [[] w1|w1| |] eqn:E; cbn [ends] in Hf; try done.
      * rewrite (bind_Ret _ _ _ _ _ Hrun). destruct Hf as (g1 & σ1 & G1 & Hw1 & HR1 & Hr1).
        eapply ends_trans; [exact Hr1|]. by eapply IHc.
      * unfold bind. rewrite Hrun. done.
    + destruct Hwp as (Hlk & Hfree & Hwp).
      set (cb := λ q b, match q with At a => nexec api (f a b) | Nil => panic end).
      destruct (mod_absent _ _ _ _ _ _ _ _ cb HR Ha Hm Hmk (HP k Hk) Hfree)
        as (T & w1 & HGh & Hn1 & Hva & HRa & Hkc & HRl & Hpan & Hret). cbn [cb] in Hpan, Hret.
      set (a := w_nxt w1) in *. set (wc := celled w1 k) in *.
      set (σ1 := MState (ms_map σ) (<[a := zero]> (ms_val σ)) (ms_usr σ)) in *.
      specialize (Hwp a Hva). cbv zeta in Hwp. fold σ1 in Hwp.
      assert (HI : Inv w G) by apply HR.
      destruct (in_good _ _ _ _ _ _ HI _ _ _ HGh) as [HQ HG].
      assert (Hnc : (w_nxt w1 < w_nxt wc)%positive) by (unfold wc, celled; simpl; lia).
      (* The blocks of the new cell and of the map lie in no other map. *)
      assert (Hout : ∀ l, region h T w w1 l \/ l = a -> (l < w_nxt wc)%positive /\
        ∀ h' s' T', h' ≠ h -> G !! h' = Some (s', T') -> l ∉ foot h' T').
      { intros l Hl. assert (Hl' : l ∈ foot h T \/ (w_nxt w <= l)%positive /\ (l <= w_nxt w1)%positive).
        { destruct Hl as [[Hl|Hl]| ->]; [by left|right; lia|right; unfold a; lia]. }
        split.
        - destruct Hl' as [Hl'|]; [|lia]. assert (l < w_nxt w)%positive by (by eapply foot_lt; [apply HI| |]). lia.
        - intros h' s' T' Hne H' Hin. destruct (in_good _ _ _ _ _ _ HI _ _ _ H') as [_ HG'].
          assert (l < w_nxt w)%positive by (by eapply foot_lt; [apply HI| |]).
          destruct Hl' as [Hl'|]; [|lia]. by eapply (in_sep _ _ _ _ _ _ HI h' s' T' h s T). }
      assert (Hwc : ∀ l, (l < w_nxt w)%positive -> (∀ h' s' T', h' ∉ lk -> G !! h' = Some (s', T') -> l ∉ foot h' T') -> l ∉ foot h T).
      { intros l _ Ho. by eapply Ho. }
      (* After the callback the key is added. *)
      assert (Hdone : ∀ w2 g0 g2 σ2 G0 G2, nexec api (f a false) wc = Ret tt w2 -> RelA (mk_away g2) G2 w2 σ2 ->
        mk_rekeyed g ⊆ mk_rekeyed g0 -> mk_rekeyed g0 ⊆ mk_rekeyed g2 ->
        (∀ h', h' ≠ h -> G0 !! h' = G !! h') ->
        (∀ h', h' ∉ mk_rekeyed g2 -> is_Some (G0 !! h') -> G2 !! h' = G0 !! h') ->
        (∀ h' x, G0 !! h' = Some x -> G !! h' = Some x) ->
        (∃ lk0 : gset positive, confined (λ h', h' ∉ lk0) G0 wc G2 w2 /\ (∀ h', h' ∉ lk0 -> h' ∉ lk) /\ (h ∉ lk0 -> G0 !! h = None)) ->
        wp dig zero P Q (free dig WS) (free dig WM) c lk Φ Ψ (back g2 h) (MState (<[h := (s, <[k := a]> m)]> (ms_map σ2)) (ms_val σ2) (ms_usr σ2)) ->
        ends lk g G w Φ Ψ ((_ <- ma_Mod api (Some h) k cb ;; nexec api c) w)).
      { intros w2 g0 g2 σ2 G0 G2 Hcb HR2 Hs1 Hs2 HG0 Hk2 Hsub0 (lk0 & [Hfn Hfr] & Hlk0 & Hh0) Hw.
        assert (Hpres : ∀ l, region h T w w1 l \/ l = a -> keep (w_mem wc) (w_mem w2) l /\
          ∀ h' s' T', h' ≠ h -> G2 !! h' = Some (s', T') -> l ∉ foot h' T').
        { intros l Hl. destruct (Hout l Hl) as [Hl1 Hl2]. destruct (Hfr l Hl1) as [Hf1 Hf2].
          - intros h' s' T' Hc H'. destruct (decide (h' = h)) as [->|Hne]; [by rewrite Hh0 in H'|].
            by eapply Hl2, Hsub0.
          - split; [done|]. intros h' s' T' Hne H' Hin. pose proof (Hf2 _ _ _ H' Hin) as H0. by eapply Hl2; [|by eapply Hsub0|]. }
        destruct (Hret w2 _ G2 σ2 Hcb HR2 Hfn Hpres) as (w' & T' & Hrun & HR' & Hn' & Hk' & Hft).
        rewrite (bind_Ret _ _ _ _ _ Hrun). eapply ends_trans; [|eapply IHc; [|exact Hw]; exact HR'].
        split; [|split].
        - split; [lia|]. intros l Hl Ho. pose proof (Hwc l Hl Ho) as Hnf.
          destruct (Hfr l) as [Hf1 Hf2].
          + lia.
          + intros h' s' T2 Hc H'. eapply Ho; [by apply Hlk0|by apply Hsub0].
          + split.
            * eapply keep_trans; [by apply Hkc|]. eapply keep_trans; [exact Hf1|]. apply Hk'; [lia|].
              intros [?|?]; [done|lia].
            * intros h' s' T2 H' Hin. destruct (decide (h' = h)) as [->|Hne].
              -- rewrite lookup_insert in H'. injection H' as <- <-. destruct (Hft l Hin) as [?|?]; [done|lia].
              -- rewrite lookup_insert_ne in H' by done. by eapply Hsub0, Hf2.
        - etrans; [exact Hs1|]. etrans; [exact Hs2|]. apply union_subseteq_l.
        - simpl. intros h' [Hn Hne]%not_elem_of_union Hx. assert (h' ≠ h) by (intros ->; apply Hne; by apply elem_of_singleton).
          rewrite lookup_insert_ne by done. rewrite <- (HG0 h') in * by done. by apply Hk2. }
      assert (Hthrow : ∀ w2 g0 G0, nexec api (f a false) wc = Panic w2 ->
        mk_rekeyed g ⊆ mk_rekeyed g0 -> (∀ h' x, G0 !! h' = Some x -> G !! h' = Some x) ->
        (∀ h', h' ∉ mk_rekeyed g0 -> G0 !! h' = G !! h') ->
        ∀ lk0 : gset positive, (∀ h', h' ∉ lk0 -> h' ∉ lk) -> ended lk0 g0 G0 wc Ψ w2 ->
        ends lk g G w Φ Ψ ((_ <- ma_Mod api (Some h) k cb ;; nexec api c) w)).
      { intros w2 g0 G0 Hcb Hs1 Hsub0 HG0 lk0 Hlk0 (g2 & σ2 & G2 & HΨ & HR2 & [Hfn Hfr] & Hs2 & Hk2).
        unfold bind. rewrite (Hpan w2 Hcb). exists g2, σ2, G2. split; [done|]. split; [done|]. split; [|split].
        - split; [lia|]. intros l Hl Ho. pose proof (Hwc l Hl Ho) as Hnf. destruct (Hfr l) as [Hf1 Hf2].
          + lia.
          + intros h' s' T2 Hc H'. eapply Ho; [by apply Hlk0|by apply Hsub0].
          + split.
            * eapply keep_trans; [by apply Hkc|exact Hf1].
            * intros h' s' T2 H' Hin. by eapply Hsub0, Hf2.
        - by etrans.
        - intros h' Hn Hx. assert (Hn0 : h' ∉ mk_rekeyed g0) by (intros Hy; by apply Hn, Hs2).
          rewrite <- (HG0 h' Hn0) in *. by apply Hk2. }
      destruct Hwp as [Hwp|[Hway Hwp]].
      * pose proof (IHf a false _ _ _ (lose g h) _ _ _ HRa Hwp) as Hf.
        destruct (nexec api (f a false) wc) as [[] w2|w2| |] eqn:E; cbn [ends] in Hf; try done.
        -- destruct Hf as (g2 & σ2 & G2 & Hw2 & HR2 & Hf2 & Hs2 & Hk2).
           eapply (Hdone w2 (lose g h) g2 σ2 (base.delete h G) G2); try done.
           ++ simpl. set_solver +.
           ++ intros h' Hne. by apply lookup_delete_ne.
           ++ intros h' x Hx. by apply lookup_delete_Some in Hx as [_ Hx].
           ++ exists lk. split; [done|]. split; [done|]. intros _. apply lookup_delete.
        -- eapply (Hthrow w2 (lose g h) (base.delete h G)); [done| | | | |exact Hf].
           ++ simpl. set_solver +.
           ++ intros h' x Hx. by apply lookup_delete_Some in Hx as [_ Hx].
           ++ intros h' Hn. apply lookup_delete_ne. intros ->. apply Hn. simpl. set_solver +.
           ++ done.
      * pose proof (IHf a false _ _ _ _ _ _ _ (HRl Hway) Hwp) as Hf.
        destruct (nexec api (f a false) wc) as [[] w2|w2| |] eqn:E; cbn [ends] in Hf; try done.
        -- destruct Hf as (g2 & σ2 & G2 & Hw2 & HR2 & Hf2 & Hs2 & Hk2).
           eapply (Hdone w2 g g2 σ2 G G2); try done.
           exists (lk ∪ {[h]}). split; [done|]. split; [intros h'; set_solver +|]. intros Hx. exfalso. apply Hx. set_solver +.
        -- eapply (Hthrow w2 g G); [done|done|done|done| |exact Hf]. intros h'. set_solver +.
  - destruct Hwp as (Ha & s & m & Hm & Hwp).
    destruct (RelA_handle _ _ _ _ _ _ _ HR Ha Hm) as (T & HI & HGh & HQ & HG & -> & Hv & Hu).
    specialize (Hwp (ent T)).
    assert (Hperm : ent T ≡ₚ map_to_list (dict T)) by (symmetry; apply (dict_list F L Hcell _ _ _ _ HG)).
    assert (Hord : in_order dig s (ent T).*1).
    { rewrite (ent_keys F L Hcell _ _ _ _ HG). pose proof (order_spec F L D s w h T HG) as Hso.
      eapply StronglySorted_impl; [|exact Hso]. intros x y (d & Hd1 & Hd2). exists d. split.
      - intros i Hi. rewrite <- !Hdig. by apply Hd1.
      - by rewrite <- !Hdig. }
    specialize (Hwp Hperm Hord).
    set (Ψ' := λ g' σ', Ψ (note g' (mk_rekeyed g)) σ') in *.
    set (fin := λ g' σ', wp dig zero P Q (free dig WS) (free dig WM) c lk Φ Ψ (note g' (mk_rekeyed g)) σ') in *.
    set (run := λ k a Φ', wp dig zero P Q (free dig WS) (free dig WM) (f k a) lk Φ' Ψ') in *.
    assert (Hrun : ∀ k a Φ g σ G w, RelA (mk_away g) G w σ -> run k a Φ g σ -> ends lk g G w Φ Ψ' (nexec api (f k a) w)).
    { intros. by eapply IHf. }
    set (cb := λ k q, match q with At a => nexec api (f k a) | Nil => panic end).
    assert (HRs : RelA (mk_away (start g h)) G w σ) by done.
    pose proof (all_entries (λ es w, ∃ g σ G, RelA (mk_away g) G w σ /\ G !! h = Some (s, T) /\ wp_each h run fin es g σ) w h s T cb) as Hall.
    assert (Hstart : ∃ g σ G, RelA (mk_away g) G w σ /\ G !! h = Some (s, T) /\ wp_each h run fin (ent T) g σ).
    { exists (start g h), σ, G. done. }
    unfold bind at 1. rewrite Hall; [| | |exact Hstart].
    + pose proof (each_sim lk h s T run fin Ψ' (λ k a, nexec api (f k a)) Hrun (ent T) (start g h) σ G w HRs HGh Hwp) as Hf.
      unfold bind. change (walk (λ e, cb e.1 (At e.2)) (ent T) w) with (walk (λ e, nexec api (f e.1 e.2)) (ent T) w).
      assert (Hr : ∀ g' G' w', ran lk (start g h) G w g' G' w' -> ran lk g G w (note g' (mk_rekeyed g)) G' w').
      { intros g' G' w' (Hf1 & Hs1 & Hk1). split; [done|]. split; [simpl; set_solver +|].
        intros h' Hn. apply Hk1. simpl in Hn. by apply not_elem_of_union in Hn as [? _]. }
      destruct (walk _ _ w) as [b w1|w1| |]; cbn [ends] in Hf; try done.
      * cbn [ret]. destruct Hf as (g1 & σ1 & G1 & Hw1 & HR1 & Hr1). eapply ends_trans; [by apply Hr|].
        by eapply IHc.
      * destruct Hf as (g1 & σ1 & G1 & HΨ & HR1 & Hr1). exists (note g1 (mk_rekeyed g)), σ1, G1.
        split; [done|]. split; [done|]. by apply Hr.
    + intros es w0 (g0 & σ0 & G0 & HR0 & HG0 & _). exists G0. split; [apply HR0|done].
    + intros k a es w0 w1 (g0 & σ0 & G0 & HR0 & HG0 & Hw0) Hdo. cbn [cb wp_each] in *.
      pose proof (Hrun k a _ _ _ _ _ HR0 Hw0) as Hx. rewrite Hdo in Hx.
      destruct Hx as (g1 & σ1 & G1 & [Hn1 Hw1] & HR1 & _ & _ & Hk1). exists g1, σ1, G1. split; [done|].
      split; [|done]. rewrite Hk1; [done|done|]. by rewrite HG0.
  - unfold try. pose proof (IHp _ _ _ _ _ _ _ HR Hwp) as Hp. destruct (nexec api p w) as [x w1|w1| |]; cbn [ends] in Hp; try done.
    all: destruct Hp as (g1 & σ1 & G1 & Hw1 & HR1 & Hr1); eapply ends_trans; [exact Hr1|]; by eapply IHc.
Qed.
End sim.
