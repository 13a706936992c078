(** Many containers in one heap, for arbitrary hash and equality functions:
    Weak.v for whole heaps, like Heap.v for Core.v. *)
From Coq Require Import Sorted SpecFloat.
From stdpp Require Import base numbers list gmap.
From Verif Require Import GoInt Mem Amt Families BitsFacts Steps Tree Rep Paths Descend Insert Split Delete Remove Core Scan Heap Levels Shape Weak Place.
Local Open Scope nat_scope.

Section wheap.
Context {K HS V CK U : Type} (F : fam K HS V CK U) (L : layout K V CK).
Local Notation block := (block V CK).
Local Notation world := (world V CK U).
Local Notation M := (M V CK U).
Local Notation tree := (tree K).
Implicit Types (w : world) (T : tree) (k : K) (h : loc) (s : N).
Variable PL : N -> tree -> Prop.
Variable D : nat.
Hypothesis HF : fam_ok F L.
Hypothesis Hall : ∀ k, ly_ok L k.
Hypothesis Hflat : ∀ k p, lk_tmap (ly_leaf L k p) = 0%N.
Hypothesis Hrepl : ∀ k p ck cp, lk_with_ptr p (ly_leaf L ck cp) = ly_leaf L k p.
Hypothesis Hcell : ly_cell L = true.
Hypothesis HPnew : ∀ s a, PL s (Node a []).
Hypothesis HD : D <= 254.
Local Notation heap := (gmap loc (N * tree)).
Implicit Types (G : heap).
Local Notation Good s w h T := (WGood L PL D s w h T).

Record WInv w G : Prop := MkWInv {
  wi_ok : w_ok w;
  wi_good : ∀ h s T, G !! h = Some (s, T) -> Good s w h T;
  wi_sep : ∀ h1 s1 T1 h2 s2 T2, h1 ≠ h2 -> G !! h1 = Some (s1, T1) -> G !! h2 = Some (s2, T2) ->
    ∀ l, l ∈ foot h1 T1 -> l ∉ foot h2 T2 }.

Lemma WGood_keep s w w' h T : Good s w h T -> (∀ l, l ∈ foot h T -> keep (w_mem w) (w_mem w') l) -> Good s w' h T.
Proof. intros [HM Hp] Hk. split; [|done]. by eapply MapI_keep. Qed.

Lemma wfoot_lt s w h T l : w_ok w -> Good s w h T -> l ∈ foot h T -> (l < w_nxt w)%positive.
Proof. intros Hok [HM _] Hl. destruct (MapI_alloc _ _ _ _ _ _ _ HM Hl) as [b Hb]. by eapply Hok. Qed.

Lemma WInv_update w w' G h s T T' : WInv w G -> G !! h = Some (s, T) -> w_ok w' ->
  (∀ l, (l < w_nxt w)%positive -> l ∉ foot h T -> keep (w_mem w) (w_mem w') l) ->
  Good s w' h T' -> (∀ l, l ∈ foot h T' -> l ∈ foot h T \/ (w_nxt w <= l)%positive) ->
  WInv w' (<[h := (s, T')]> G).
Proof.
  intros [Hok Hg Hsep] Hh Hok' Hk HG' Hf.
  assert (Hother : ∀ h2 s2 T2, h2 ≠ h -> G !! h2 = Some (s2, T2) -> ∀ l, l ∈ foot h T' -> l ∉ foot h2 T2).
  { intros h2 s2 T2 Hne H2 l Hl Hl2. destruct (Hf l Hl) as [Hl1|Hl1].
    - by eapply (Hsep h s T h2 s2 T2).
    - apply Hg in H2. eapply wfoot_lt in H2; [|done|exact Hl2]. lia. }
  constructor; [done| |].
  - intros h2 s2 T2 H2. destruct (decide (h2 = h)) as [->|Hne].
    + rewrite lookup_insert in H2. by injection H2 as <- <-.
    + rewrite lookup_insert_ne in H2 by done. pose proof (Hg _ _ _ H2) as HG.
      eapply WGood_keep; [done|]. intros l Hl. apply Hk.
      * by eapply wfoot_lt.
      * by eapply (Hsep h2 s2 T2 h s T).
  - intros h1 s1 T1 h2 s2 T2 Hne H1 H2 l Hl.
    destruct (decide (h1 = h)) as [->|Hn1]; [|destruct (decide (h2 = h)) as [->|Hn2]].
    + rewrite lookup_insert in H1. injection H1 as <- <-. rewrite lookup_insert_ne in H2 by done.
      by eapply Hother.
    + rewrite lookup_insert in H2. injection H2 as <- <-. rewrite lookup_insert_ne in H1 by done.
      intros Hl'. by eapply Hother.
    + rewrite lookup_insert_ne in H1 by done. rewrite lookup_insert_ne in H2 by done. by eapply Hsep.
Qed.

Lemma WInv_keep w w' G : WInv w G -> w_ok w' -> (∀ l, (l < w_nxt w)%positive -> keep (w_mem w) (w_mem w') l) -> WInv w' G.
Proof.
  intros [Hok Hg Hsep] Hok' Hk. constructor; [done| |done].
  intros h s T H. pose proof (Hg _ _ _ H) as HG.
  eapply WGood_keep; [done|]. intros l Hl. apply Hk. by eapply wfoot_lt.
Qed.

Lemma WInv_empty u : WInv (empty_world u) ∅.
Proof. constructor; [intros l b H|intros h s T H|intros h1 s1 T1 h2 s2 T2 _ H]; simpl in H; by rewrite lookup_empty in H. Qed.

Lemma wnew_spec w G s : WInv w G ->
  ∃ h a w', New s w = Ret (Some h) w' /\ WInv w' (<[h := (s, Node a [])]> G) /\ G !! h = None /\
    vals w' = vals w /\ w_usr w' = w_usr w.
Proof.
  intros [Hok Hg Hsep].
  set (a := w_nxt w). set (h := xO a).
  set (b1 := BLinks (V:=V) (CK:=CK) (replicate 16 zero_link)).
  set (b2 := BRoot (V:=V) (CK:=CK) (Root (Link (At a) 0 0) s 0 0 (replicate 12 (PLink 0 None)))).
  set (w' := World (<[h := b2]> (<[a := b1]> (w_mem w))) (xO h) (w_usr w) : world).
  exists h, a, w'.
  assert (Hah : a ≠ h) by (unfold h; lia).
  assert (Hfr : ∀ h' s' T', G !! h' = Some (s', T') -> ∀ l, l ∈ foot h' T' -> (l < a)%positive).
  { intros h' s' T' H' l Hl. apply Hg in H'. by eapply wfoot_lt. }
  assert (Hnone : G !! h = None).
  { destruct (G !! h) as [[s' T']|] eqn:E; [|done]. pose proof (Hfr _ _ _ E h ltac:(unfold foot; set_solver +)) as Hlt. unfold h in Hlt. lia. }
  assert (Hk : ∀ l, (l < a)%positive -> w_mem w' !! l = w_mem w !! l).
  { intros l Hl. simpl. rewrite !lookup_insert_ne; [done| |]; unfold h; lia. }
  split_and!; try done.
  - assert (Hgood : Good s w' h (Node a [])).
    { split; [|apply HPnew]. constructor.
      + exists (Root (Link (At a) 0 0) s 0 0 (replicate 12 (PLink 0 None))). split_and!; try done.
        * simpl. apply lookup_insert.
        * apply (rep_node L _ 0 a [] [] (replicate 16 zero_link)); [|done|by repeat constructor|constructor].
          simpl. rewrite lookup_insert_ne by done. apply lookup_insert.
      + simpl. repeat constructor; [set_solver +Hah|set_solver +].
      + by constructor.
      + simpl. lia. }
    constructor.
    + intros l b Hb. simpl in *. destruct (decide (l = h)) as [->|Hn1]; [lia|].
      rewrite lookup_insert_ne in Hb by done. destruct (decide (l = a)) as [->|Hn2]; [unfold h; lia|].
      rewrite lookup_insert_ne in Hb by done. apply Hok in Hb. unfold h, a. lia.
    + intros h' s' T' H'. destruct (decide (h' = h)) as [->|Hne].
      * rewrite lookup_insert in H'. by injection H' as <- <-.
      * rewrite lookup_insert_ne in H' by done. pose proof (Hg _ _ _ H') as HG'.
        eapply WGood_keep; [done|]. intros l Hl. apply keep_same. apply Hk. by eapply Hfr.
    + assert (Hd : ∀ h' s' T', G !! h' = Some (s', T') -> ∀ l, l ∈ foot h (Node a (@nil (N * tree))) -> l ∉ foot h' T').
      { intros h' s' T' H' l Hl Hl'. eapply Hfr in Hl'; [|done]. unfold foot in Hl. simpl in Hl.
        unfold h in Hl. apply elem_of_cons in Hl as [->|Hl]; [lia|]. apply elem_of_list_singleton in Hl as ->. lia. }
      intros h1 s1 T1 h2 s2 T2 Hne H1 H2 l Hl.
      destruct (decide (h1 = h)) as [->|Hn1]; [|destruct (decide (h2 = h)) as [->|Hn2]].
      * rewrite lookup_insert in H1. injection H1 as <- <-. rewrite lookup_insert_ne in H2 by done. by eapply Hd.
      * rewrite lookup_insert in H2. injection H2 as <- <-. rewrite lookup_insert_ne in H1 by done. intros ?. by eapply Hd.
      * rewrite lookup_insert_ne in H1 by done. rewrite lookup_insert_ne in H2 by done. by eapply Hsep.
  - apply map_eq. intros l. rewrite !vals_lookup. simpl.
    destruct (decide (l = h)) as [->|Hn1].
    { rewrite lookup_insert. destruct (w_mem w !! h) as [b|] eqn:E; [|done]. apply Hok in E. unfold h, a in E. lia. }
    rewrite lookup_insert_ne by done. destruct (decide (l = a)) as [->|Hn2].
    { rewrite lookup_insert. destruct (w_mem w !! a) as [b|] eqn:E; [|done]. apply Hok in E. unfold a in E. lia. }
    by rewrite lookup_insert_ne.
Qed.

(** ** Lookup *)

(** The address of the entry that a lookup of k finds. *)
Definition wlook s T k : option positive :=
  head (omap (λ e, if bool_decide (e.1 = nibs F s k (length e.1)) && f_eq F k e.2.1
                   then match e.2.2 with At a => Some a | Nil => None end else None) (pleaves [] T)).

Lemma spot_same s w h T k k1 p1 k2 p2 : Good s w h T -> spot F s T k k1 p1 -> spot F s T k k2 p2 -> k1 = k2 /\ p1 = p2.
Proof.
  intros [HM _] H1 H2. pose proof (MapI_wf _ _ _ _ _ _ HM) as Hwf.
  destruct (wdescend F L D s HD w h T k 256 HM (le_n _)) as (c & a & [(cs & Hst & _)|(bef & ck & cp & aft & Hst & _)]).
  - exfalso. by eapply missing_spot.
  - destruct (spot_unique _ _ _ _ _ _ _ _ _ _ _ _ Hwf Hst H1) as [-> ->].
    by destruct (spot_unique _ _ _ _ _ _ _ _ _ _ _ _ Hwf Hst H2) as [-> ->].
Qed.

Lemma wlook_some s T k p : wlook s T k = Some p -> ∃ k', spot F s T k k' (At p) /\ f_eq F k k' = true.
Proof.
  unfold wlook. set (g := λ e : list N * (K * ptr), _). intros Hh.
  assert (Hin : p ∈ omap g (pleaves [] T)).
  { destruct (omap g (pleaves [] T)); simpl in Hh; [done|]. injection Hh as ->. left. }
  apply elem_of_list_omap in Hin as ([q [k' p']] & Hin & Hg). unfold g in Hg. cbn [fst snd] in Hg.
  destruct (bool_decide _) eqn:E1; [|done]. destruct (f_eq F k k') eqn:E2; [|done]. simpl in Hg.
  destruct p' as [|a]; [done|]. injection Hg as ->. exists k'. split; [|done].
  exists q. split; [by apply bool_decide_eq_true in E1|done].
Qed.
Lemma wlook_spot s w h T k k' p : Good s w h T -> spot F s T k k' (At p) -> f_eq F k k' = true -> wlook s T k = Some p.
Proof.
  intros HG Hs He. destruct (wlook s T k) as [p'|] eqn:E.
  - apply wlook_some in E as (k2 & Hs2 & _). destruct (spot_same _ _ _ _ _ _ _ _ _ HG Hs Hs2) as [_ [= ->]]. done.
  - exfalso. unfold wlook in E. set (g := λ e : list N * (K * ptr), _) in E.
    destruct Hs as (q & Hq & Hin).
    assert (Hx : p ∈ omap g (pleaves [] T)).
    { apply elem_of_list_omap. exists (q, (k', At p)). split; [done|]. unfold g. cbn [fst snd].
      rewrite bool_decide_eq_true_2 by done. by rewrite He. }
    destruct (omap g (pleaves [] T)); [by apply elem_of_nil in Hx|done].
Qed.

(** The entries with their addresses. *)
Definition went T : list (K * positive) :=
  omap (λ e, match e.2 with At a => Some (e.1, a) | Nil => None end) (leaves T).
Lemma went_leaves s w h T : Good s w h T -> leaves T = map (λ e, (e.1, At e.2)) (went T).
Proof.
  intros [HG _].
  assert (Hat : Forall (λ e, ∃ a, e.2 = At a) (leaves T)).
  { apply Forall_forall. intros [k p] Hin. pose proof (MapI_cell _ _ _ _ _ _ _ _ HG Hin) as Hc.
    unfold cell in Hc. rewrite Hcell in Hc. destruct Hc as (a & v & -> & _). eauto. }
  unfold went. induction Hat as [|[k p] l [a E] Hat IH]; simpl; [done|]. simpl in E. subst p. simpl. by f_equal.
Qed.
Lemma went_in T k a : (k, a) ∈ went T <-> (k, At a) ∈ leaves T.
Proof.
  unfold went. rewrite elem_of_list_omap. split.
  - intros ([k' [|a']] & Hin & E); simpl in E; [done|]. by injection E as -> ->.
  - intros Hin. exists (k, At a). done.
Qed.
Lemma went_perm T E : leaves T ≡ₚ E ->
  went T ≡ₚ omap (λ e, match e.2 with At a => Some (e.1, a) | Nil => None end) E.
Proof. intros Hp. unfold went. by rewrite Hp. Qed.
Lemma went_block s w h T k a : Good s w h T -> (k, a) ∈ went T ->
  ∃ v, w_mem w !! a = Some (BKv v (ly_ck L k)) /\ vals w !! a = Some v.
Proof.
  intros [HG _] Ha. apply went_in in Ha.
  pose proof (MapI_cell _ _ _ _ _ _ _ _ HG Ha) as Hc. unfold cell in Hc. rewrite Hcell in Hc.
  destruct Hc as (a' & v & [= <-] & Hv). exists v. rewrite vals_lookup, Hv. done.
Qed.

Lemma wlook_ent s T k p : wlook s T k = Some p -> ∃ k', (k', p) ∈ went T /\ f_eq F k k' = true.
Proof.
  intros (k' & Hs & He)%wlook_some. exists k'. split; [|done]. apply went_in. by eapply spot_leaf.
Qed.

Lemma WInv_find w G h s T k fuel : WInv w G -> G !! h = Some (s, T) -> 256 <= fuel ->
  match wlook s T k with
  | Some p => ∃ k', (k', p) ∈ went T /\ f_eq F k k' = true /\ find F fuel (Some h) k w = Ret (Some (ly_leaf L k' (At p))) w
  | None => find F fuel (Some h) k w = Ret None w
  end.
Proof.
  intros HI Hh Hf. pose proof (wi_good _ _ HI _ _ _ Hh) as HG. pose proof HG as [HM _].
  destruct (wfind F L HF Hall D s HD w h T k fuel HM Hf) as [(Hn & Hr)|(k' & p & Hs & Hr)].
  - destruct (wlook s T k) as [p|] eqn:E; [|done]. apply wlook_some in E as (k' & Hs & _). by apply Hn in Hs.
  - destruct (f_eq F k k') eqn:E.
    + pose proof (MapI_cell _ _ _ _ _ _ _ _ HM (spot_leaf _ _ _ _ _ _ Hs)) as Hc. unfold cell in Hc. rewrite Hcell in Hc.
      destruct Hc as (a & v & -> & Hv). rewrite (wlook_spot _ _ _ _ _ _ _ HG Hs E). exists k'.
      split_and!; [|done|done]. apply went_in. by eapply spot_leaf.
    + destruct (wlook s T k) as [p'|] eqn:E2; [|done]. apply wlook_some in E2 as (k2 & Hs2 & He).
      destruct (spot_same _ _ _ _ _ _ _ _ _ HG Hs Hs2) as [-> _]. congruence.
Qed.

(** ** Insertion *)
Lemma WInv_insert (F' : fam K HS V CK U) op w G h s T k fuel :
  fam_ok F' L -> (∀ k d, nib F' s k d = nib F s k d) -> f_eq F' = f_eq F -> place_ok F' PL ->
  WInv w G -> G !! h = Some (s, T) -> 256 <= fuel ->
  (∀ w1, w_ok w1 -> ∃ p w2, io_split op w1 = Ret p w2 /\ newcell L w1 w2 k p) ->
  match wlook s T k with
  | Some p => ∃ k', (k', p) ∈ went T /\ f_eq F k k' = true /\
      insert F' op fuel (Some h) k w = io_found op (ly_leaf L k' (At p)) w
  | None =>
      insert F' op fuel (Some h) k w = Hang \/
      (∃ w' lv, insert F' op fuel (Some h) k w = Ret tt w' /\ level (w_mem w') h (S D) lv) \/
      (∃ (b : bool) w1,
        let mk := if b then io_new op else io_split op in
        quiet (λ l, l ∈ foot h T) w w1 /\ w_ok w1 /\
        ∀ p w2, mk w1 = Ret p w2 -> newcell L w1 w2 k p ->
          ∃ w' T', insert F' op fuel (Some h) k w = Ret tt w' /\
            WInv w' (<[h := (s, T')]> G) /\ spot F s T' k k p /\
            (leaves T' ≡ₚ (k, p) :: leaves T \/
             io_check op = true /\ ∃ ck cp E d n ch, leaves T ≡ₚ (ck, cp) :: E /\ leaves T' ≡ₚ (k, p) :: E /\
               d <= D /\ (nibs F s k (S d), (ck, cp)) ∈ pleaves [] T /\
               f_conf F' n s k ck (N.of_nat d) = Some ch /\ radix_of ch ≠ nib F s k d) /\
            w_usr w' = w_usr w2 /\ vals w' = vals w2)
  end.
Proof.
  intros HF' Hnib Heq HP' HI Hh Hf Hios.
  pose proof HI as [Hwok Hg Hsep]. pose proof (Hg _ _ _ Hh) as HG. pose proof HG as [HM _].
  assert (Hnibs : ∀ k n, nibs F' s k n = nibs F s k n).
  { intros k0 n. unfold nibs. apply map_ext. intros. by rewrite Hnib. }
  assert (Hspot : ∀ T k k' p, spot F' s T k k' p <-> spot F s T k k' p).
  { intros T0 k0 k' p. unfold spot. split; intros (q & Hq & Hin); exists q; (split; [|done]); rewrite Hq at 1; by rewrite Hnibs. }
  pose proof (winsert F' L HF' Hall Hflat Hrepl PL HP' D s HD op w h T k fuel HG Hwok Hf Hios) as Hw.
  assert (Hfound : ∀ k' p, spot F' s T k k' p -> f_eq F' k k' = true -> ∃ a, p = At a /\ wlook s T k = Some a).
  { intros k' p Hs He. apply Hspot in Hs. rewrite Heq in He.
    pose proof (MapI_cell _ _ _ _ _ _ _ _ HM (spot_leaf _ _ _ _ _ _ Hs)) as Hc. unfold cell in Hc. rewrite Hcell in Hc.
    destruct Hc as (a & v & -> & Hv). exists a. split; [done|]. by eapply wlook_spot. }
  destruct (wlook s T k) as [a|] eqn:Elook.
  { (* the entry is found, whatever Hw says: lookup and insertion take the same path *)
    apply wlook_some in Elook as (k1 & Hs1 & He1).
    exists k1. split; [apply went_in; by eapply spot_leaf|]. split; [done|].
    apply Hspot in Hs1. rewrite <- Heq in He1.
    unfold insert. destruct (MapI_seed _ _ _ _ _ _ HM) as (rt & Hrt & Hsd).
    rewrite (bind_Ret _ _ _ _ _ (load_root_step _ _ _ Hrt)). rewrite Hsd.
    destruct (wdescend F' L D s HD w h T k fuel HM Hf) as (c & a0 & [(cs & Hst & Hd)|(bef & ck & cp & aft & Hst & Hd)]).
    - exfalso. eapply missing_spot; [by eapply MapI_wf|done|done].
    - rewrite (bind_Ret _ _ _ _ _ Hd).
      destruct (spot_unique _ _ _ _ _ _ _ _ _ _ _ _ (MapI_wf _ _ _ _ _ _ HM) Hst Hs1) as [<- <-].
      pose proof (MapI_cell _ _ _ _ _ _ _ _ HM (spot_leaf _ _ _ _ _ _ Hs1)) as Hc.
      unfold add_present.
      rewrite (bind_Ret _ _ _ _ _ (load_link_step _ _ _ (witem_at F' L D s _ _ _ _ _ _ _ _ _ _ HM Hst))).
      rewrite (bind_Ret _ _ _ _ _ (fo_key _ _ HF' _ _ _ (Hall _) Hc)). by rewrite He1. }
  destruct Hw as [Hw|[(k' & p & Hs & He & Hrun)|[Hw|(b & w1 & Hq & He & Hm)]]]; [by left| |by right; left|].
  { exfalso. destruct (Hfound _ _ Hs He) as (a & -> & E). congruence. }
  right; right. exists b, w1. cbv zeta in *.
  assert (Hok1 : w_ok w1) by (by apply (qu_ok _ _ _ Hq)).
  split_and!; try done.
  intros p w2 Hmk Hnc. pose proof Hnc as (Hok2 & Hn2 & Hk2 & Hcl & Hp2).
  destruct (Hm p w2 Hmk Hnc) as (w' & T' & Hrun & Hq2 & HG2 & Hsp & Hlv & Hfoot).
  exists w', T'. split_and!; try done.
  - eapply (WInv_update w w' G h s T T' HI Hh).
    + by apply (qu_ok _ _ _ Hq2).
    + intros l Hl Hnf. eapply keep_trans; [|eapply keep_trans].
      * apply keep_same. by apply (qu_frame _ _ _ Hq).
      * apply Hk2. pose proof (qu_nxt _ _ _ Hq). lia.
      * apply keep_same. pose proof (qu_nxt _ _ _ Hq). apply (qu_frame _ _ _ Hq2); [lia|].
        intros [?|?]; [done|lia].
    + done.
    + intros l Hl. pose proof (qu_nxt _ _ _ Hq). destruct (Hfoot l Hl) as [?|[Hl2|[?|?]]]; [by left|right..].
      * apply Hp2 in Hl2. lia.
      * lia.
      * lia.
  - by apply Hspot.
  - destruct Hlv as [?|(Hchk & ck & cp & E & d & n & ch & H1 & H2 & H3 & H4 & H5 & H6)]; [by left|right].
    split; [done|]. exists ck, cp, E, d, n, ch. rewrite <- Hnibs, <- Hnib. done.
  - by apply (qu_usr _ _ _ Hq2).
  - by eapply vals_quiet.
Qed.

(** ** Deletion *)
Hypothesis HP : place_ok F PL.
Lemma WInv_delete miss w G h s T k fuel : WInv w G -> G !! h = Some (s, T) -> 256 <= fuel ->
  ((∀ k' p, spot F s T k k' p -> miss (f_eq F k k') = true) /\
   ∃ w', delete_gen F miss fuel (Some h) k w = Ret tt w' /\ WInv w' G /\ w_usr w' = w_usr w /\ vals w' = vals w) \/
  (∃ k' p w' T', spot F s T k k' (At p) /\ miss (f_eq F k k') = false /\
     delete_gen F miss fuel (Some h) k w = Ret tt w' /\ WInv w' (<[h := (s, T')]> G) /\
     leaves T ≡ₚ (k', At p) :: leaves T' /\ w_usr w' = w_usr w /\ vals w' = vals w).
Proof.
  intros HI Hh Hf. pose proof HI as [Hwok Hg Hsep]. pose proof (Hg _ _ _ Hh) as HG. pose proof HG as [HM _].
  destruct (wdelete F L HF Hall PL HP D s HD miss w h T k fuel HG Hwok Hf)
    as [(Hmiss & w' & Hrun & Hs)|(k' & p & w' & T' & Hsp & Hm & Hrun & Hq & HG' & Hlv & Hfoot)].
  - left. split; [done|]. exists w'.
    assert (Hq : quiet (λ l, l = h) w w') by (by eapply sbp_quiet).
    split_and!; try done.
    + rewrite <- (insert_id G h (s, T)) by done.
      eapply (WInv_update w w' G h s T T HI Hh).
      * by apply (qu_ok _ _ _ Hq).
      * intros l Hl Hnf. apply keep_same. apply (qu_frame _ _ _ Hq); [done|]. intros ->. apply Hnf. unfold foot. set_solver +.
      * destruct HG. split; [|done]. by eapply MapI_sbp.
      * auto.
    + by apply (qu_usr _ _ _ Hq).
    + by eapply vals_quiet.
  - right. pose proof (MapI_cell _ _ _ _ _ _ _ _ HM (spot_leaf _ _ _ _ _ _ Hsp)) as Hc. unfold cell in Hc. rewrite Hcell in Hc.
    destruct Hc as (a & v & -> & Hv). exists k', a, w', T'. split_and!; try done.
    + eapply (WInv_update w w' G h s T T' HI Hh); [by apply (qu_ok _ _ _ Hq)| |done|].
      * intros l Hl Hnf. apply keep_same. by apply (qu_frame _ _ _ Hq).
      * intros l Hl. destruct (Hfoot l Hl); [by left|right; lia].
    + by apply (qu_usr _ _ _ Hq).
    + by eapply vals_quiet.
Qed.

(** ** Counters and values *)
Lemma WInv_root w G h s T : WInv w G -> G !! h = Some (s, T) ->
  ∃ rt, w_mem w !! h = Some (BRoot rt) /\ rt_len rt = u64 (N.of_nat (length (leaves T))) /\
    rt_dep rt = u64 (N.of_nat (sumdep 0 T)).
Proof.
  intros HI Hh. destruct (wi_good _ _ HI _ _ _ Hh) as [[(rt & Hr & _ & _ & Hl & Hd & _) _ _ _] _].
  exists rt. done.
Qed.

Lemma WInv_store w G (l : loc) v v0 ck u : WInv w G -> w_mem w !! l = Some (BKv v0 ck) ->
  WInv (World (<[l := BKv v ck]> (w_mem w)) (w_nxt w) u) G.
Proof.
  intros HI Hl. apply (WInv_keep w); [done| |].
  - intros l' b Hb. simpl in *. destruct (decide (l' = l)) as [->|Hne].
    + by eapply (wi_ok _ _ HI).
    + rewrite lookup_insert_ne in Hb by done. by eapply (wi_ok _ _ HI).
  - intros l' _. simpl. destruct (decide (l' = l)) as [->|Hne].
    + intros b Hb. rewrite Hl in Hb. injection Hb as <-. exists (BKv v ck). rewrite lookup_insert.
      split; [done|]. right. eauto.
    + apply keep_same. by rewrite lookup_insert_ne.
Qed.

Lemma WInv_usr w G u : WInv w G -> WInv (World (w_mem w) (w_nxt w) u) G.
Proof. intros HI. apply (WInv_keep w); [done|apply (wi_ok _ _ HI)|]. intros l _. by apply keep_same. Qed.
End wheap.

Lemma WInv_mono {K V CK U} (L : layout K V CK) (PL PL' : N -> tree K -> Prop) D (w : world V CK U) G : WInv L PL D w G ->
  (∀ h s T, G !! h = Some (s, T) -> PL s T -> PL' s T) -> WInv L PL' D w G.
Proof.
  intros [Hok Hg Hsep] HPL. constructor; try done. intros h s T Hh. destruct (Hg _ _ _ Hh) as [HM HPT]. split; [done|].
  by eapply HPL.
Qed.

(** ** The structs of the entries are all different *)
Lemma sub_in {A} (l1 l2 : list A) : sublist l1 l2 -> ∀ x, x ∈ l1 -> x ∈ l2.
Proof.
  induction 1 as [|y l1 l2 Hs IH|y l1 l2 Hs IH]; intros x Hx; [done| |right; auto].
  apply elem_of_cons in Hx as [->|Hx]; [left|right; auto].
Qed.
Lemma sub_nodup {A} (l1 l2 : list A) : sublist l1 l2 -> NoDup l2 -> NoDup l1.
Proof.
  induction 1 as [|y l1 l2 Hs IH|y l1 l2 Hs IH]; intros Hn; [done| |].
  - apply NoDup_cons in Hn as [H1 H2]. constructor; [|auto]. intros Hy. apply H1. by eapply sub_in.
  - apply NoDup_cons in Hn as [H1 H2]. auto.
Qed.
Lemma leaf_locs {K} (T : tree K) : sublist (flat_map (λ e, ptr_locs e.2) (leaves T)) (locs T).
Proof.
  induction T as [k q|a cs IH] using tree_ind'.
  - simpl. by rewrite app_nil_r.
  - cbn [leaves locs]. apply sublist_cons. induction IH as [|c cs Hc IH IH2]; [done|]. simpl.
    rewrite flat_map_app. by apply sublist_app.
Qed.
Lemma leaf_nodup {K} (T : tree K) : NoDup (locs T) -> NoDup (flat_map (λ e, ptr_locs e.2) (leaves T)).
Proof. intros Hnd. eapply sub_nodup; [apply leaf_locs|done]. Qed.
Lemma leaf_unique {K} (T : tree K) l1 k p l2 k' : NoDup (locs T) -> leaves T = l1 ++ (k, At p) :: l2 ->
  (k', At p) ∉ l1 /\ (k', At p) ∉ l2.
Proof.
  intros Hnd Hl. pose proof (leaf_nodup T Hnd) as Hn.
  rewrite Hl, flat_map_app in Hn. simpl in Hn. apply NoDup_app in Hn as (_ & Hn1 & Hn2). apply NoDup_cons in Hn2 as [Hn2 _].
  assert (Hmem : ∀ l, (k', At p) ∈ l -> p ∈ flat_map (λ e : K * ptr, ptr_locs e.2) l).
  { intros l Hin. apply elem_of_list_In, in_flat_map. exists (k', At p). split; [by apply elem_of_list_In|]. by left. }
  split; intros Hin; apply Hmem in Hin.
  - apply (Hn1 p Hin). left.
  - done.
Qed.
Lemma leaf_foot {K} (T : tree K) h k p : (k, At p) ∈ leaves T -> p ∈ foot h T.
Proof.
  intros Hin. right. eapply sub_in; [apply leaf_locs|]. apply elem_of_list_In, in_flat_map. exists (k, At p).
  split; [by apply elem_of_list_In|]. by left.
Qed.
Lemma pleaf_unique {K} (T : tree K) q1 k1 q2 k2 p : NoDup (locs T) ->
  (q1, (k1, At p)) ∈ pleaves [] T -> (q2, (k2, At p)) ∈ pleaves [] T -> q1 = q2 /\ k1 = k2.
Proof.
  intros Hnd H1 H2. apply elem_of_list_split in H1 as (l1 & l2 & Hl).
  assert (Hlv : leaves T = map snd l1 ++ (k1, At p) :: map snd l2).
  { rewrite <- (pleaves_leaves T []), Hl, map_app. done. }
  destruct (leaf_unique T _ _ _ _ k2 Hnd Hlv) as [Hn1 Hn2].
  rewrite Hl in H2. apply elem_of_app in H2 as [H2|H2].
  - exfalso. apply Hn1. apply elem_of_list_In, in_map_iff. exists (q2, (k2, At p)). split; [done|]. by apply elem_of_list_In.
  - apply elem_of_cons in H2 as [H2|H2]; [by injection H2 as -> ->|].
    exfalso. apply Hn2. apply elem_of_list_In, in_map_iff. exists (q2, (k2, At p)). split; [done|]. by apply elem_of_list_In.
Qed.

(** ** What is found stays in its place *)
Section stay.
Context {K HS V CK U : Type} (F : fam K HS V CK U) (L : layout K V CK) (PL : N -> tree K -> Prop) (D : nat).
Local Notation heap := (gmap loc (N * tree K)).
Implicit Types (w : world V CK U) (G : heap) (T : tree K).
Hypothesis HD : D <= 254.
Hypothesis Hcell : ly_cell L = true.

(** The entries that a lookup of their own key finds. *)
Definition sits G s k (p : ptr) : Prop := ∃ h T, G !! h = Some (s, T) /\ spot F s T k k p.

Lemma WInv_sits w G : WInv L PL D w G -> WInv L (λ s T, PL s T /\ placen F (sits G) s T) D w G.
Proof.
  intros HI. apply (WInv_mono _ PL); [done|]. intros h s T Hh HPT. split; [done|].
  apply Forall_forall. intros [q [k p]] Hin (h' & T' & Hh' & (q' & Hq' & Hin')).
  destruct (wi_good _ _ _ _ _ HI _ _ _ Hh) as [HM _]. pose proof (MapI_cell _ _ _ _ _ _ _ _ HM (leaf_of _ _ Hin)) as Hc.
  unfold cell in Hc. rewrite Hcell in Hc. destruct Hc as (a & v & -> & _).
  destruct (decide (h' = h)) as [->|Hne].
  - rewrite Hh in Hh'. injection Hh' as <-.
    pose proof (mi_nodup _ _ _ _ _ _ HM) as Hnd. apply NoDup_cons in Hnd as [_ Hnd].
    destruct (pleaf_unique T _ _ _ _ _ Hnd Hin Hin') as [-> _]. done.
  - exfalso. eapply (wi_sep _ _ _ _ _ HI h' s T' h s T Hne Hh' Hh a); eapply leaf_foot.
    + exact (leaf_of _ _ Hin').
    + exact (leaf_of _ _ Hin).
Qed.

Lemma wlook_stays G h s T T' w' k1 p1 : (∀ k k' d, f_eq F k k' = true -> nib F s k d = nib F s k' d) ->
  G !! h = Some (s, T) -> wlook F s T k1 = Some p1 -> (∀ k', (k', p1) ∈ went T -> (k', p1) ∈ went T') ->
  placen F (sits G) s T' -> WGood L PL D s w' h T' -> wlook F s T' k1 = Some p1.
Proof.
  intros Hsame Hh Hl Hin Hpl HG. apply wlook_some in Hl as (k' & (q & Hq & Hq1) & He).
  assert (Hnibs : ∀ n, nibs F s k1 n = nibs F s k' n).
  { intros n. unfold nibs. apply map_ext. intros. by apply Hsame. }
  assert (Hx : (k', p1) ∈ went T').
  { apply Hin. apply went_in. by apply (leaf_of T (q, (k', At p1))). }
  apply went_in in Hx. rewrite <- (pleaves_leaves T' []) in Hx.
  apply elem_of_list_In, in_map_iff in Hx as ([q' e'] & E & Hx). cbn [snd] in E. subst e'. apply elem_of_list_In in Hx.
  unfold placen in Hpl. rewrite Forall_forall in Hpl.
  assert (Hw : well F s (q', (k', At p1))).
  { apply (Hpl _ Hx). exists h, T. split; [done|]. exists q. split; [|done]. rewrite Hq at 1. by rewrite Hnibs. }
  eapply (wlook_spot F L PL D HD); [exact HG| |exact He]. exists q'. split; [|done].
  unfold well in Hw. cbn [fst snd] in Hw. rewrite Hw at 1. by rewrite Hnibs.
Qed.

(** The entry that is replaced was not to be found. *)
Lemma swapped_lost w G h s T k ck cp d n ch k1 : (∀ k k' d, f_eq F k k' = true -> nib F s k d = nib F s k' d) ->
  right_conf F -> WInv L PL D w G -> G !! h = Some (s, T) -> d <= D ->
  (nibs F s k (S d), (ck, At cp)) ∈ pleaves [] T -> f_conf F n s k ck (N.of_nat d) = Some ch -> radix_of ch ≠ nib F s k d ->
  wlook F s T k1 ≠ Some cp.
Proof.
  intros Hsame Hconf HI Hh Hd Hin Hc Hne Hl. apply wlook_some in Hl as (k' & (q & Hq & Hq1) & He).
  destruct (wi_good _ _ _ _ _ HI _ _ _ Hh) as [HM _].
  pose proof (mi_nodup _ _ _ _ _ _ HM) as Hnd. apply NoDup_cons in Hnd as [_ Hnd].
  destruct (pleaf_unique T _ _ _ _ _ Hnd Hin Hq1) as [<- <-]. rewrite nibs_length in Hq.
  rewrite !nibs_S in Hq. apply app_inj_tail in Hq as [_ Hq].
  apply Hconf in Hc as ->; [|lia]. apply Hne. rewrite Hq. symmetry. exact (Hsame _ _ d He).
Qed.
End stay.
