(** What the proof about programs with several types (Mixed.v) needs to know of
    each map and set type. *)
From Coq Require Import Sorted.
From stdpp Require Import base numbers list gmap.
From Verif Require Import GoInt Mem Hash Amt Families BitsFacts Steps Tree Rep Paths Descend Insert Split Delete Remove Core Scan Order Heap Spec SpecFacts HashFacts Guards Client Types Refine RefineSet Instances Pack Sep Programs ProgramFacts Nested NestedSim NestedRun NestedSet.
Local Open Scope nat_scope.

(** ** Maps *)
Section maps.
Context `{Countable K} {V CK U : Type}.
Local Notation world := (world V CK U).
Local Notation M := (M V CK U).
Local Notation heap := (gmap loc (N * tree K)).
Local Notation mstate := (mstate K V U).
Implicit Types (w : world) (T : tree K) (k : K) (h : loc) (s : N) (v : V) (u : U) (G : heap) (σ : mstate) (A : gset positive) (g : mark) (lk : gset positive).
Variables (api : mapapi K V CK U) (dig : N -> K -> nat -> N) (zero : V) (P : K -> Prop) (Q : N -> Prop)
  (fitS fitM : N -> list K -> K -> Prop).

(** How the callback of a Mod of a new key starts: the map is out of reach, or
    it must not be rebuilt. *)
Definition starts lk g G h (lk0 : gset positive) (g0 : mark) (G0 : heap) : Prop :=
  (lk0 = lk /\ g0 = lose g h /\ G0 = base.delete h G) \/ (lk0 = lk ∪ {[h]} /\ g0 = g /\ G0 = G).

Inductive mruns : Type := MRuns
  (rel : gset positive -> heap -> world -> mstate -> Prop)
  (rn_init : ∀ u, rel ∅ ∅ (empty_world u) (minit u))
  (rn_usr : ∀ A G w σ, rel A G w σ -> ms_usr σ = w_usr w)
  (rn_clean : ∀ A G w σ, rel A G w σ -> clean P Q σ)
  (rn_own : ∀ A G w σ u, rel A G w σ ->
    rel A G (World (w_mem w) (w_nxt w) u) (MState (ms_map σ) (ms_val σ) u))
  (rn_call : ∀ A G w σ op, rel A G w σ -> may P Q fitS fitM σ op -> (∀ h, uses op h -> h ∉ A) ->
    ∃ r w' σ' G', mcall api op w = Ret r w' /\ mstep dig zero σ op r σ' /\ rel A G' w' σ' /\
      confined (rebuilds σ op) G w G' w' /\
      ∀ h, h ∉ rekeyed σ op -> is_Some (G !! h) -> G' !! h = G !! h)
  (rn_all : ∀ A G w σ h s m, rel A G w σ -> h ∉ A -> ms_map σ !! h = Some (s, m) ->
    ∃ T es, G !! h = Some (s, T) /\ es ≡ₚ map_to_list m /\ in_order dig s es.*1 /\
      ∀ (I : list (K * positive) -> world -> Prop) (do : K -> ptr -> M bool) w,
        (∀ es w, I es w -> ∃ A G σ, rel A G w σ /\ G !! h = Some (s, T)) ->
        (∀ k a es w w', I ((k, a) :: es) w -> do k (At a) w = Ret true w' -> I es w') ->
        I es w -> ma_All api (Some h) do w = (_ <- walk (λ e, do e.1 (At e.2)) es ;; ret tt) w)
  (rn_stored : ∀ A G w σ h k s m a cb, rel A G w σ -> P k -> h ∉ A -> ms_map σ !! h = Some (s, m) ->
    m !! k = Some a -> ma_Mod api (Some h) k cb w = cb (At a) true w)
  (rn_absent : ∀ lk g G w σ h k s m cb, rel (mk_away g) G w σ -> P k -> h ∉ mk_away g ->
    ms_map σ !! h = Some (s, m) -> m !! k = None -> h ∉ lk -> fitM s (map_to_list m).*1 k ->
    ∃ a wc, let σ1 := MState (ms_map σ) (<[a := zero]> (ms_val σ)) (ms_usr σ) in
      ms_val σ !! a = None /\ rel (mk_away (lose g h)) (base.delete h G) wc σ1 /\
      ((∀ k', ¬ in_way dig s (map_to_list m).*1 k k') -> rel (mk_away g) G wc σ1) /\
      ∀ lk0 g0 G0, starts lk g G h lk0 g0 G0 ->
        (∀ w2 g2 G2, cb (At a) false wc = Panic w2 -> ran lk0 g0 G0 wc g2 G2 w2 ->
           ma_Mod api (Some h) k cb w = Panic w2 /\ ran lk g G w g2 G2 w2) /\
        (∀ w2 g2 σ2 G2, cb (At a) false wc = Ret tt w2 -> rel (mk_away g2) G2 w2 σ2 ->
           ran lk0 g0 G0 wc g2 G2 w2 ->
           ∃ w' G', ma_Mod api (Some h) k cb w = Ret tt w' /\
             rel (mk_away (back g2 h)) G' w' (MState (<[h := (s, <[k := a]> m)]> (ms_map σ2)) (ms_val σ2) (ms_usr σ2)) /\
             ran lk g G w (back g2 h) G' w')).
End maps.

Section map_types.
Context {V U : Type} (zero : V) (fuel : nat).
Hypothesis Hfuel : 256 <= fuel.

Lemma map_runs `{Countable K} {CK} (api : mapapi K V CK U) dig P Q WS WM :
  map_type zero fuel api dig (λ tr op, mallowed P Q tr op /\ ins_guard dig WS WM tr op) ->
  inhabited (mruns api dig zero P Q (free dig WS) (free dig WM)).
Proof.
  intros Ht. destruct (map_pack zero fuel api dig _ Ht) as [].
  assert (HP : ∀ k, P k -> ly_ok L k).
  { intros k Hk. destruct (Hok [(MNew 0%N, RHandle xH)] (MGet xH k)) as [[_ Hx] _]; [|done].
    split; [|done]. split; [|done]. exists 0%N. by left. }
  assert (HQ : ∀ s, Q s -> Q0 s).
  { intros s Hs. by destruct (Hok [] (MNew s)) as [Hx _]. }
  assert (Hfr : ∀ (W W' : N -> K -> K -> nat -> Prop) (op : loc -> K -> mop K V U),
    (∀ tr h k, ins_guard dig WS WM tr (op h k) <-> (k ∈ stored tr h \/ ∀ s, (MNew s, RHandle h) ∈ tr -> free dig W s (elements (stored tr h)) k)) ->
    (∀ tr h k, ins_guard dig WS0 WM0 tr (op h k) <-> (k ∈ stored tr h \/ ∀ s, (MNew s, RHandle h) ∈ tr -> free dig W' s (elements (stored tr h)) k)) ->
    (∀ tr h k, mallowed P Q tr (op h k) <-> (∃ s, (MNew s, RHandle h) ∈ tr) /\ P k) -> fits_in P Q (free dig W) (free dig W')).
  { intros W W' op H1 H2 H3 s m k _ _ Hk Hm Hfree. set (ks := (map_to_list m).*1) in *.
    destruct (history_stored (U:=U) zero s xH ks) as (tr & Hn & Hs).
    assert (Hnd : NoDup ks) by apply NoDup_fst_map_to_list.
    assert (Hel : elements (stored tr xH) ≡ₚ ks).
    { rewrite Hs. by apply elements_list_to_set. }
    destruct (Hok tr (op xH k)) as [_ Hg].
    - split.
      + apply H3. split; [|done]. exists s. by apply Hn.
      + apply H1. right. intros s' ->%Hn. by eapply free_perm.
    - apply H2 in Hg as [Hin|Hg].
      + exfalso. rewrite Hs, elem_of_list_to_set in Hin. apply elem_of_list_fmap in Hin as ([k' a] & -> & Hin).
        apply elem_of_map_to_list in Hin. simpl in Hm. congruence.
      + eapply free_perm; [exact Hel|]. apply Hg. by apply Hn. }
  assert (HfS : fits_in P Q (free dig WS) (free dig WS0)) by (apply (Hfr _ _ (λ h k, MSet h k zero)); done).
  assert (HfM : fits_in P Q (free dig WM) (free dig WM0)) by (apply (Hfr _ _ (λ h k, MMod h k (λ u v _, (u, v)))); done).
  constructor. apply (MRuns _ _ _ _ _ _ _ (λ A G w σ, RelA F L Q0 A G w σ /\ clean P Q σ)).
  - intros u. split; [apply RelA_init|]. intros h s m Hx. simpl in Hx. by rewrite lookup_empty in Hx.
  - intros A G w σ [[(_ & _ & _ & Hu) _] _]. done.
  - intros A G w σ [_ Hc]. done.
  - intros A G w σ u [HR Hc]. split; [by apply RelA_own|done].
  - intros A G w σ op [HR Hc] Hmay Hu.
    destruct (call_sim F L Q0 HF HL Hcell zero fuel Hfuel dig Hdig FS FM sop mdop vs WS0 WM0 HFS HFM HWS HWM Hvs Hsop Hmop
      api HSet HMod HDel HGet HVal HPtr HAll P HP A G w σ op HR) as (r & w' & σ' & G' & Hcall & Hst & HR' & Hcf & Hk); [|done|].
    { eapply may_mono; [| | | | |exact Hmay]; done. }
    exists r, w', σ', G'. split; [done|]. split; [done|]. split; [|done]. split; [done|]. by eapply may_clean.
  - intros A G w σ h s m [HR Hc] Ha Hm.
    destruct (RelA_handle F L Q0 _ _ _ _ _ _ _ HR Ha Hm) as (T & HI & HGh & HQs & HG & -> & Hv & Hu).
    exists T, (ent T). split; [done|]. split; [symmetry; apply (dict_list F L Hcell _ _ _ _ HG)|]. split.
    { rewrite (ent_keys F L Hcell _ _ _ _ HG). pose proof (order_spec F L 240 s w h T HG) as Hso.
      eapply StronglySorted_impl; [|exact Hso]. intros x y (d & Hd1 & Hd2). exists d. split.
      - intros i Hi. rewrite <- !Hdig. by apply Hd1.
      - by rewrite <- !Hdig. }
    intros I do w0 HI0 Hstep Hw0. eapply (all_entries F L Q0 HF Hcell fuel Hfuel api HAll I w0 h s T do); [|done|done].
    intros es w1 (A1 & G1 & σ1 & [[(HI1 & _) _] _] & HG1)%HI0. eauto.
  - intros A G w σ h k s m a cb [HR Hc] Hk Ha Hm Hmk.
    by eapply (mod_stored F L Q0 HF Hcell zero fuel Hfuel FM mdop HFM Hmop api HMod); eauto.
  - intros lk g G w σ h k s m cb [HR Hc] Hk Ha Hm Hmk Hlk Hfit.
    destruct (Hc _ _ _ Hm) as [HQs HPm].
    assert (Hfree : free dig WM0 s (map_to_list m).*1 k) by (by apply HfM).
    destruct (mod_absent F L Q0 HF HL Hcell zero fuel Hfuel dig Hdig FS FM sop mdop vs WS0 WM0 HFS HFM HWS HWM Hvs Hsop Hmop Hearly
      api HSet HMod HDel HGet HVal HPtr HAll P HP _ _ _ _ _ _ _ _ cb HR Ha Hm Hmk (HP k Hk) Hfree)
      as (T & w1 & HGh & Hn1 & Hva & HRa & Hkc & HRl & Hpan & Hret).
    set (a := w_nxt w1) in *. set (wc := celled L zero w1 k) in *. exists a, wc. cbv zeta.
    set (σ1 := MState (ms_map σ) (<[a := zero]> (ms_val σ)) (ms_usr σ)) in *.
    split; [done|]. split; [by split|]. split; [intros Hway; split; [by apply HRl|done]|].
    assert (HI : Inv F L 240 Q0 w G) by apply HR.
    destruct (in_good _ _ _ _ _ _ HI _ _ _ HGh) as [_ HG].
    assert (Hnc : (w_nxt w1 < w_nxt wc)%positive) by (unfold wc, celled; simpl; lia).
    assert (Hout : ∀ l, region h T w w1 l \/ l = a -> (l < w_nxt wc)%positive /\
      ∀ h' s' T', h' ≠ h -> G !! h' = Some (s', T') -> l ∉ foot h' T').
    { intros l Hl. assert (Hl' : l ∈ foot h T \/ (w_nxt w <= l)%positive /\ (l <= w_nxt w1)%positive).
      { destruct Hl as [[Hl|Hl]| ->]; [by left|right; lia|right; unfold a; lia]. }
      split.
      - destruct Hl' as [Hl'|]; [|lia]. assert (l < w_nxt w)%positive by (by eapply foot_lt; [apply HI| |]). lia.
      - intros h' s' T' Hne H' Hin. destruct (in_good _ _ _ _ _ _ HI _ _ _ H') as [_ HG'].
        assert (l < w_nxt w)%positive by (by eapply foot_lt; [apply HI| |]).
        destruct Hl' as [Hl'|]; [|lia]. by eapply (in_sep _ _ _ _ _ _ HI h' s' T' h s T). }
    assert (Hwc : ∀ l, (∀ h' s' T', h' ∉ lk -> G !! h' = Some (s', T') -> l ∉ foot h' T') -> l ∉ foot h T).
    { intros l Ho. by eapply Ho. }
    intros lk0 g0 G0 Hst0.
    assert (Hs1 : mk_rekeyed g ⊆ mk_rekeyed g0) by (destruct Hst0 as [(-> & -> & ->)|(-> & -> & ->)]; simpl; set_solver +).
    assert (Hsub0 : ∀ h' x, G0 !! h' = Some x -> G !! h' = Some x).
    { destruct Hst0 as [(-> & -> & ->)|(-> & -> & ->)]; [|done]. intros h' x Hx. by apply lookup_delete_Some in Hx as [_ Hx]. }
    assert (HG0 : ∀ h', h' ≠ h -> G0 !! h' = G !! h').
    { destruct Hst0 as [(-> & -> & ->)|(-> & -> & ->)]; [|done]. intros h' Hne. by apply lookup_delete_ne. }
    assert (HG0' : ∀ h', h' ∉ mk_rekeyed g0 -> G0 !! h' = G !! h').
    { destruct Hst0 as [(-> & -> & ->)|(-> & -> & ->)]; [|done]. intros h' Hn. apply lookup_delete_ne. intros ->. apply Hn. simpl. set_solver +. }
    assert (Hlk0 : ∀ h', h' ∉ lk0 -> h' ∉ lk) by (destruct Hst0 as [(-> & -> & ->)|(-> & -> & ->)]; [done|set_solver +]).
    assert (Hh0 : h ∉ lk0 -> G0 !! h = None).
    { destruct Hst0 as [(-> & -> & ->)|(-> & -> & ->)]; [intros _; apply lookup_delete|]. intros Hx. exfalso. apply Hx. set_solver +. }
    clear Hst0. split.
    + intros w2 g2 G2 Hcb ([Hfn Hfr0] & Hs2 & Hk2). split; [by apply Hpan|]. split; [|split].
      * split; [lia|]. intros l Hl Ho. pose proof (Hwc l Ho) as Hnf. destruct (Hfr0 l) as [Hf1 Hf2].
        -- lia.
        -- intros h' s' T2 Hcc H'. eapply Ho; [by apply Hlk0|by apply Hsub0].
        -- split.
           ++ eapply keep_trans; [by apply Hkc|exact Hf1].
           ++ intros h' s' T2 H' Hin. by eapply Hsub0, Hf2.
      * by etrans.
      * intros h' Hn Hx. assert (Hn0 : h' ∉ mk_rekeyed g0) by (intros Hy; by apply Hn, Hs2).
        rewrite <- (HG0' h' Hn0) in *. by apply Hk2.
    + intros w2 g2 σ2 G2 Hcb [HR2 Hc2] ([Hfn Hfr0] & Hs2 & Hk2).
      assert (Hpres : ∀ l, region h T w w1 l \/ l = a -> keep (w_mem wc) (w_mem w2) l /\
        ∀ h' s' T', h' ≠ h -> G2 !! h' = Some (s', T') -> l ∉ foot h' T').
      { intros l Hl. destruct (Hout l Hl) as [Hl1 Hl2]. destruct (Hfr0 l Hl1) as [Hf1 Hf2].
        - intros h' s' T' Hcc H'. destruct (decide (h' = h)) as [->|Hne]; [by rewrite Hh0 in H'|].
          by eapply Hl2, Hsub0.
        - split; [done|]. intros h' s' T' Hne H' Hin. pose proof (Hf2 _ _ _ H' Hin) as H0. by eapply Hl2; [|by eapply Hsub0|]. }
      destruct (Hret w2 _ G2 σ2 Hcb HR2 Hfn Hpres) as (w' & T' & Hrun & HR' & Hn' & Hk' & Hft).
      exists w', (<[h := (s, T')]> G2). split; [done|]. split; [split; [done|by apply clean_add]|].
      split; [|split].
      * split; [lia|]. intros l Hl Ho. pose proof (Hwc l Ho) as Hnf.
        destruct (Hfr0 l) as [Hf1 Hf2].
        -- lia.
        -- intros h' s' T2 Hcc H'. eapply Ho; [by apply Hlk0|by apply Hsub0].
        -- split.
           ++ eapply keep_trans; [by apply Hkc|]. eapply keep_trans; [exact Hf1|]. apply Hk'; [lia|].
              intros [?|?]; [done|lia].
           ++ intros h' s' T2 H' Hin. destruct (decide (h' = h)) as [->|Hne].
              ** rewrite lookup_insert in H'. injection H' as <- <-. destruct (Hft l Hin) as [?|?]; [done|lia].
              ** rewrite lookup_insert_ne in H' by done. by eapply Hsub0, Hf2.
      * etrans; [exact Hs1|]. etrans; [exact Hs2|]. apply union_subseteq_l.
      * simpl. intros h' [Hn Hne]%not_elem_of_union Hx. assert (h' ≠ h) by (intros ->; apply Hne; by apply elem_of_singleton).
        rewrite lookup_insert_ne by done. rewrite <- (HG0 h') in * by done. by apply Hk2.
Qed.

(** Other conditions on new keys. *)
Lemma mruns_fits `{Countable K} {CK} (api : mapapi K V CK U) dig P Q fitS fitM fitS' fitM' :
  fits_in P Q fitS' fitS -> fits_in P Q fitM' fitM ->
  mruns api dig zero P Q fitS fitM -> mruns api dig zero P Q fitS' fitM'.
Proof.
  intros HS HM [rel Hi Hu Hc Ho Hcall Hall Hst Hab].
  apply (MRuns _ _ _ _ _ _ _ rel Hi Hu Hc Ho).
  - intros A G w σ op HR Hmay. apply Hcall; [done|]. eapply may_mono; [| | | | |exact Hmay]; eauto.
  - exact Hall.
  - exact Hst.
  - intros lk g G w σ h k s m cb HR Hk Ha Hm Hmk Hlk Hfit. eapply Hab; eauto.
    destruct (Hc _ _ _ _ HR _ _ _ Hm) as [HQ HP]. by apply HM.
Qed.
End map_types.

(** ** Sets *)
Section sets.
Context `{Countable K} {CK U : Type}.
Local Notation world := (world unit CK U).
Local Notation M := (M unit CK U).
Local Notation heap := (gmap loc (N * tree K)).
Local Notation sstate := (sstate K U).
Implicit Types (w : world) (T : tree K) (k : K) (h : loc) (s : N) (u : U) (G : heap) (σ : sstate).
Variables (api : setapi K unit CK U) (dig : N -> K -> nat -> N) (P : K -> Prop) (Q : N -> Prop)
  (fit : N -> list K -> K -> Prop) (dl : bool).

Inductive sruns : Type := SRuns
  (rel : heap -> world -> sstate -> Prop)
  (rn_init : ∀ u, rel ∅ (empty_world u) (sinit u))
  (rn_usr : ∀ G w σ, rel G w σ -> ss_usr σ = w_usr w)
  (rn_clean : ∀ G w σ, rel G w σ -> sclean P Q σ)
  (rn_own : ∀ G w σ u, rel G w σ -> rel G (World (w_mem w) (w_nxt w) u) (SState (ss_set σ) u))
  (rn_call : ∀ G w σ op, rel G w σ -> smay P Q fit dl σ op ->
    ∃ r w' σ' G', scall api op w = Ret r w' /\ sstep dig σ op r σ' /\ rel G' w' σ' /\
      ∀ h, h ∉ srekeyed σ op -> is_Some (G !! h) -> G' !! h = G !! h)
  (rn_all : ∀ G w σ h s X, rel G w σ -> ss_set σ !! h = Some (s, X) ->
    ∃ T ks, G !! h = Some (s, T) /\ ks ≡ₚ elements X /\ in_order dig s ks /\
      ∀ (I : list K -> world -> Prop) (do : K -> M bool) w,
        (∀ ks w, I ks w -> ∃ G σ, rel G w σ /\ G !! h = Some (s, T)) ->
        (∀ k ks w w', I (k :: ks) w -> do k w = Ret true w' -> I ks w') ->
        I ks w -> sa_All api (Some h) do w = (_ <- walk do ks ;; ret tt) w).
End sets.

Section set_types.
Context {U : Type} (fuel : nat).
Hypothesis Hfuel : 256 <= fuel.

Lemma set_runs `{Countable K} {CK} (api : setapi K unit CK U) dig ok P Q W dl :
  set_type fuel api dig ok ->
  (∀ tr op, sallowed P Q tr op -> add_guard dig W tr op -> dl = true \/ no_del op -> ok tr op) ->
  inhabited (sruns api dig P Q (free dig W) dl).
Proof.
  intros Ht Hall'. destruct (set_pack fuel api dig _ Ht) as [].
  assert (HP : ∀ k, P k -> ly_ok L k).
  { intros k Hk. destruct (Hok [(SNew 0%N, THandle xH)] (SHas xH k)) as [[_ Hx] _]; [|done].
    apply Hall'; [|done|by right]. split; [|done]. exists 0%N. by left. }
  assert (HQ : ∀ s, Q s -> Q0 s).
  { intros s Hs. destruct (Hok [] (SNew s)) as [Hx _]; [|done]. apply Hall'; [done|done|by right]. }
  assert (Hfr : ∀ s (X : gset K) k, Q s -> (∀ k, k ∈ X -> P k) -> P k -> k ∉ X ->
    free dig W s (elements X) k -> free dig W0 s (elements X) k).
  { intros s X k _ _ Hk Hn Hfree. destruct (history_members (U:=U) s xH (elements X)) as (tr & Htr & Hs).
    rewrite list_to_set_elements_L in Hs.
    destruct (Hok tr (SAdd xH k)) as [_ Hg].
    - apply Hall'; [| |by right].
      + split; [|done]. exists s. by apply Htr.
      + right. intros s' ->%Htr. by rewrite Hs.
    - simpl in Hg. rewrite Hs in Hg. destruct Hg as [Hin|Hg]; [done|]. apply Hg. by apply Htr. }
  assert (Hdl : ∀ k, P k -> dl = true -> dfull = true).
  { intros k Hk Hd. destruct (Hok [(SNew 0%N, THandle xH)] (SDel xH k)) as [_ Hx]; [|exact Hx].
    apply Hall'; [|done|by left]. split; [|done]. exists 0%N. by left. }
  constructor. apply (SRuns _ _ _ _ _ _ (λ G w σ, RefineSet.RelG F L Q0 G w σ /\ sclean P Q σ)).
  - intros u. split.
    + split; [apply Inv_empty|]. split; [by rewrite fmap_empty|done].
    + intros h s X Hx. simpl in Hx. by rewrite lookup_empty in Hx.
  - intros G w σ [(_ & _ & Hu) _]. done.
  - intros G w σ [_ Hc]. done.
  - intros G w σ u [(HI & Hm & Hu) Hc]. split; [|done]. split_and!; try done. by apply Inv_usr.
  - intros G w σ op [HR Hc] Hmay.
    destruct (RefineSet.step_okG F L Q0 HF HL fuel Hfuel dig Hdig FA aop W0 dfull tt HFA HW Haop api HAdd HDel HHas HAll
      G w σ op HR) as (r & w' & σ' & G' & Hcall & Hst & HR' & Hon).
    { eapply smay_can; [exact HP|]. eapply smay_mono; [| | | | |exact Hmay]; eauto. }
    exists r, w', σ', G'. split; [done|]. split; [done|]. split; [split; [done|by eapply smay_clean]|].
    intros h Hh Hs. assert (Hss : is_Some (ss_set σ !! h)).
    { destruct HR as (_ & Hm & _). rewrite Hm, lookup_fmap. destruct Hs as [x ->]. done. }
    pose proof (sstep_rekeyed dig σ op r σ' h Hst Hh Hss) as He. destruct Hss as [x Hx]. eapply Hon; [exact Hx|congruence].
  - intros G w σ h s X [HR Hc] Hm.
    destruct (RefineSet.RelG_handle F L Q0 _ _ _ h HR) as (s' & T & HI & HGh & HQs & HG & _ & Hmh & Hu); [by rewrite Hm|].
    rewrite Hmh in Hm. injection Hm as -> <-. exists T, (map fst (leaves T)). split; [done|].
    split; [by rewrite (keys_list F L _ _ _ _ HG)|]. split.
    { pose proof (order_spec F L 240 s w h T HG) as Hso.
      eapply StronglySorted_impl; [|exact Hso]. intros x y (d & Hd1 & Hd2). exists d. split.
      - intros i Hi. rewrite <- !Hdig. by apply Hd1.
      - by rewrite <- !Hdig. }
    intros I do w0 HI0 Hstep Hw0. eapply (all_members F L Q0 HF fuel Hfuel api HAll I w0 h s T do); [|done|done].
    intros es w1 (G1 & σ1 & [(HI1 & _) _] & HG1)%HI0. eauto.
Qed.

Lemma sruns_fits `{Countable K} {CK} (api : setapi K unit CK U) dig (P : K -> Prop) (Q : N -> Prop) (fit fit' : N -> list K -> K -> Prop) dl :
  (∀ s (X : gset K) k, Q s -> (∀ k, k ∈ X -> P k) -> P k -> k ∉ X -> fit' s (elements X) k -> fit s (elements X) k) ->
  sruns api dig P Q fit dl -> sruns api dig P Q fit' dl.
Proof.
  intros Hf [rel Hi Hu Hc Ho Hcall Hall]. apply (SRuns _ _ _ _ _ _ rel Hi Hu Hc Ho).
  - intros G w σ op HR Hmay. apply Hcall; [done|]. eapply smay_mono; [| | | | |exact Hmay]; eauto.
  - exact Hall.
Qed.
End set_types.
