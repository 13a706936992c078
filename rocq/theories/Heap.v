(** Many containers in one heap. *)
From Coq Require Import Sorted SpecFloat.
From stdpp Require Import base numbers list gmap.
From Verif Require Import GoInt Mem Amt Families BitsFacts Steps Tree Rep Paths Descend Insert Split Delete Remove Core Scan.
Local Open Scope nat_scope.

Section vals.
Context {V CK U : Type}.
Local Notation world := (world V CK U).
Implicit Types (w : world).

(** The values of all key-value structs. *)
Definition vals w : gmap loc V :=
  omap (λ b, match b with BKv v _ => Some v | _ => None end) (w_mem w).

Lemma vals_lookup w l : vals w !! l = match w_mem w !! l with Some (BKv v _) => Some v | _ => None end.
Proof. unfold vals. rewrite lookup_omap. by destruct (w_mem w !! l). Qed.

Lemma vals_quiet S w w' : w_ok w -> quiet S w w' -> vals w' = vals w.
Proof.
  intros Hok Hq. apply map_eq. intros l. rewrite !vals_lookup.
  destruct (w_mem w !! l) as [[ls|v k|rt]|] eqn:E.
  2:{ assert (l < w_nxt w)%positive by (by eapply Hok). by rewrite (qu_kv _ _ _ Hq _ _ _ H E). }
  all: destruct (w_mem w' !! l) as [[ls'|v' k'|rt']|] eqn:E'; try done;
    pose proof (qu_new _ _ _ Hq _ _ _ E'); congruence.
Qed.

Lemma vals_alloc w v k u : vals (World (<[w_nxt w := BKv v k]> (w_mem w)) (xO (w_nxt w)) u)
  = <[w_nxt w := v]> (vals w).
Proof.
  apply map_eq. intros l. rewrite vals_lookup. simpl. destruct (decide (l = w_nxt w)) as [->|Hne].
  - by rewrite !lookup_insert.
  - rewrite !lookup_insert_ne by done. by rewrite vals_lookup.
Qed.
Lemma vals_store w l v k n u : vals (World (<[l := BKv v k]> (w_mem w)) n u) = <[l := v]> (vals w).
Proof.
  apply map_eq. intros l'. rewrite vals_lookup. simpl. destruct (decide (l' = l)) as [->|Hne].
  - by rewrite !lookup_insert.
  - rewrite !lookup_insert_ne by done. by rewrite vals_lookup.
Qed.
Lemma vals_fresh w : w_ok w -> vals w !! w_nxt w = None.
Proof. intros H. rewrite vals_lookup. by rewrite (w_ok_fresh w H). Qed.
End vals.

Section heap.
Context {K HS V CK U : Type} (F : fam K HS V CK U) (L : layout K V CK).
Local Notation block := (block V CK).
Local Notation world := (world V CK U).
Local Notation M := (M V CK U).
Local Notation tree := (tree K).
Implicit Types (w : world) (T : tree) (k : K) (h : loc) (s : N).
Variables (D : nat) (Q : N -> Prop).
Hypothesis HF : fam_ok F L.
Hypothesis HD : D <= 240.
Hypothesis HL : laws F L.
Local Notation Good s := (Good F L D s).
Local Notation heap := (gmap loc (N * tree)).
Implicit Types (G : heap).

Record Inv w G : Prop := MkInv {
  in_ok : w_ok w;
  in_good : ∀ h s T, G !! h = Some (s, T) -> Q s /\ Good s w h T;
  in_sep : ∀ h1 s1 T1 h2 s2 T2, h1 ≠ h2 -> G !! h1 = Some (s1, T1) -> G !! h2 = Some (s2, T2) ->
    ∀ l, l ∈ foot h1 T1 -> l ∉ foot h2 T2 }.

Lemma Good_keep s w w' h T : Good s w h T -> (∀ l, l ∈ foot h T -> keep (w_mem w) (w_mem w') l) -> Good s w' h T.
Proof. intros [HM Hp] Hk. split; [|done]. by eapply MapI_keep. Qed.

Lemma foot_lt s w h T l : w_ok w -> Good s w h T -> l ∈ foot h T -> (l < w_nxt w)%positive.
Proof. intros Hok [HM _] Hl. destruct (MapI_alloc _ _ _ _ _ _ _ HM Hl) as [b Hb]. by eapply Hok. Qed.

Lemma Inv_update w w' G h s T T' : Inv w G -> G !! h = Some (s, T) -> w_ok w' ->
  (∀ l, (l < w_nxt w)%positive -> l ∉ foot h T -> keep (w_mem w) (w_mem w') l) ->
  Good s w' h T' -> (∀ l, l ∈ foot h T' -> l ∈ foot h T \/ (w_nxt w <= l)%positive) ->
  Inv w' (<[h := (s, T')]> G).
Proof.
  intros [Hok Hg Hsep] Hh Hok' Hk HG' Hf.
  assert (Hother : ∀ h2 s2 T2, h2 ≠ h -> G !! h2 = Some (s2, T2) -> ∀ l, l ∈ foot h T' -> l ∉ foot h2 T2).
  { intros h2 s2 T2 Hne H2 l Hl Hl2. destruct (Hf l Hl) as [Hl1|Hl1].
    - by eapply (Hsep h s T h2 s2 T2).
    - apply Hg in H2 as [_ H2]. eapply foot_lt in H2; [|done|exact Hl2]. lia. }
  constructor; [done| |].
  - intros h2 s2 T2 H2. destruct (decide (h2 = h)) as [->|Hne].
    + rewrite lookup_insert in H2. injection H2 as <- <-. split; [|done]. by apply Hg in Hh as [? _].
    + rewrite lookup_insert_ne in H2 by done. destruct (Hg _ _ _ H2) as [HQ HG]. split; [done|].
      eapply Good_keep; [done|]. intros l Hl. apply Hk.
      * by eapply foot_lt.
      * by eapply (Hsep h2 s2 T2 h s T).
  - intros h1 s1 T1 h2 s2 T2 Hne H1 H2 l Hl.
    destruct (decide (h1 = h)) as [->|Hn1]; [|destruct (decide (h2 = h)) as [->|Hn2]].
    + rewrite lookup_insert in H1. injection H1 as <- <-. rewrite lookup_insert_ne in H2 by done.
      by eapply Hother.
    + rewrite lookup_insert in H2. injection H2 as <- <-. rewrite lookup_insert_ne in H1 by done.
      intros Hl'. by eapply Hother.
    + rewrite lookup_insert_ne in H1 by done. rewrite lookup_insert_ne in H2 by done. by eapply Hsep.
Qed.

Lemma Inv_keep w w' G : Inv w G -> w_ok w' -> (∀ l, (l < w_nxt w)%positive -> keep (w_mem w) (w_mem w') l) -> Inv w' G.
Proof.
  intros [Hok Hg Hsep] Hok' Hk. constructor; [done| |done].
  intros h s T H. destruct (Hg _ _ _ H) as [HQ HG]. split; [done|].
  eapply Good_keep; [done|]. intros l Hl. apply Hk. by eapply foot_lt.
Qed.

(** From w to w' only containers in C were taken apart: the blocks of no other
    container, and no block outside all containers, changed but for values. *)
Definition confined (C : loc -> Prop) G w G' w' : Prop :=
  (w_nxt w <= w_nxt w')%positive /\
  ∀ l, (l < w_nxt w)%positive -> (∀ h s T, C h -> G !! h = Some (s, T) -> l ∉ foot h T) ->
    keep (w_mem w) (w_mem w') l /\
    ∀ h s T, G' !! h = Some (s, T) -> l ∈ foot h T -> G !! h = Some (s, T).

Lemma confined_refl C G w : confined C G w G w.
Proof. clear HD. split; [lia|]. intros l _ _. split; [by apply keep_same|done]. Qed.
Lemma confined_trans C G1 w1 G2 w2 G3 w3 : confined C G1 w1 G2 w2 -> confined C G2 w2 G3 w3 -> confined C G1 w1 G3 w3.
Proof. clear HD.
  intros [n1 f1] [n2 f2]. split; [lia|]. intros l Hl Ho. destruct (f1 l Hl Ho) as [Hk1 Hg1].
  destruct (f2 l) as [Hk2 Hg2]; [lia| |].
  - intros h s T Hc Hg Hin. by eapply Ho; [|by eapply Hg1|].
  - split; [by eapply keep_trans|]. intros h s T Hg Hin. by eapply Hg1; [eapply Hg2|].
Qed.
Lemma confined_mono (C C' : loc -> Prop) G w G' w' : (∀ h, C h -> C' h) -> confined C G w G' w' -> confined C' G w G' w'.
Proof.
  clear HD. intros HC [n f]. split; [done|]. intros l Hl Ho. apply f; [done|].
  intros h s T Hc. by apply Ho, HC.
Qed.
Lemma confined_keep C G w w' : (w_nxt w <= w_nxt w')%positive ->
  (∀ l, (l < w_nxt w)%positive -> keep (w_mem w) (w_mem w') l) -> confined C G w G w'.
Proof. clear HD. intros Hn Hk. split; [done|]. intros l Hl _. split; [by apply Hk|done]. Qed.
Lemma confined_update (C : loc -> Prop) w w' G h s T T' : C h -> G !! h = Some (s, T) -> (w_nxt w <= w_nxt w')%positive ->
  (∀ l, (l < w_nxt w)%positive -> l ∉ foot h T -> keep (w_mem w) (w_mem w') l) ->
  (∀ l, l ∈ foot h T' -> l ∈ foot h T \/ (w_nxt w <= l)%positive) -> confined C G w (<[h := (s, T')]> G) w'.
Proof. clear HD.
  intros Hc Hh Hn Hk Hf. split; [done|]. intros l Hl Ho. pose proof (Ho _ _ _ Hc Hh) as Hnot. split; [by apply Hk|].
  intros h2 s2 T2 H2 Hin. destruct (decide (h2 = h)) as [->|Hne]; [|by rewrite lookup_insert_ne in H2].
  rewrite lookup_insert in H2. injection H2 as <- <-. destruct (Hf _ Hin); [done|lia].
Qed.

Lemma Inv_empty u : Inv (empty_world u) ∅.
Proof. constructor; [intros l b H|intros h s T H|intros h1 s1 T1 h2 s2 T2 _ H]; simpl in H; by rewrite lookup_empty in H. Qed.

(** ** New *)
Lemma new_spec w G s : Inv w G -> Q s ->
  ∃ h a w', New s w = Ret (Some h) w' /\ Inv w' (<[h := (s, Node a [])]> G) /\ G !! h = None /\
    vals w' = vals w /\ w_usr w' = w_usr w /\ clean w' h /\ (w_nxt w <= h)%positive /\
    (w_nxt w <= a)%positive /\ (w_nxt w <= w_nxt w')%positive /\ ∀ l, (l < w_nxt w)%positive -> w_mem w' !! l = w_mem w !! l.
Proof.
  intros [Hok Hg Hsep] HQ.
  set (a := w_nxt w). set (h := xO a).
  set (b1 := BLinks (V:=V) (CK:=CK) (replicate 16 zero_link)).
  set (b2 := BRoot (V:=V) (CK:=CK) (Root (Link (At a) 0 0) s 0 0 (replicate 12 (PLink 0 None)))).
  set (w' := World (<[h := b2]> (<[a := b1]> (w_mem w))) (xO h) (w_usr w) : world).
  exists h, a, w'.
  assert (Hah : a ≠ h) by (unfold h; lia).
  assert (Hfr : ∀ h' s' T', G !! h' = Some (s', T') -> ∀ l, l ∈ foot h' T' -> (l < a)%positive).
  { intros h' s' T' H' l Hl. apply Hg in H' as [_ H']. by eapply foot_lt. }
  assert (Hnone : G !! h = None).
  { destruct (G !! h) as [[s' T']|] eqn:E; [|done]. pose proof (Hfr _ _ _ E h ltac:(unfold foot; set_solver +)) as Hlt. unfold h in Hlt. lia. }
  assert (Hk : ∀ l, (l < a)%positive -> w_mem w' !! l = w_mem w !! l).
  { intros l Hl. simpl. rewrite !lookup_insert_ne; [done| |]; unfold h; lia. }
  split_and!; try done.
  - assert (Hgood : Good s w' h (Node a [])).
    { split.
      - constructor.
        + exists (Root (Link (At a) 0 0) s 0 0 (replicate 12 (PLink 0 None))). split_and!; try done.
          * simpl. apply lookup_insert.
          * apply (rep_node L _ 0 a [] [] (replicate 16 zero_link)); [|done|by repeat constructor|constructor].
            simpl. rewrite lookup_insert_ne by done. apply lookup_insert.
        + simpl. repeat constructor; [set_solver +Hah|set_solver +].
        + by constructor.
        + simpl. lia.
      - by constructor. }
    constructor.
    + intros l b Hb. simpl in *. destruct (decide (l = h)) as [->|Hn1]; [lia|].
      rewrite lookup_insert_ne in Hb by done. destruct (decide (l = a)) as [->|Hn2]; [unfold h; lia|].
      rewrite lookup_insert_ne in Hb by done. apply Hok in Hb. unfold h, a. lia.
    + intros h' s' T' H'. destruct (decide (h' = h)) as [->|Hne].
      * rewrite lookup_insert in H'. injection H' as <- <-. done.
      * rewrite lookup_insert_ne in H' by done. destruct (Hg _ _ _ H') as [HQ' HG']. split; [done|].
        eapply Good_keep; [done|]. intros l Hl. apply keep_same. apply Hk. by eapply Hfr.
    + assert (Hd : ∀ h' s' T', G !! h' = Some (s', T') -> ∀ l, l ∈ foot h (Node a (@nil (N * tree))) -> l ∉ foot h' T').
      { intros h' s' T' H' l Hl Hl'. eapply Hfr in Hl'; [|done]. unfold foot in Hl. simpl in Hl.
        unfold h in Hl. apply elem_of_cons in Hl as [->|Hl]; [lia|]. apply elem_of_list_singleton in Hl as ->. lia. }
      intros h1 s1 T1 h2 s2 T2 Hne H1 H2 l Hl.
      destruct (decide (h1 = h)) as [->|Hn1]; [|destruct (decide (h2 = h)) as [->|Hn2]].
      * rewrite lookup_insert in H1. injection H1 as <- <-. rewrite lookup_insert_ne in H2 by done. by eapply Hd.
      * rewrite lookup_insert in H2. injection H2 as <- <-. rewrite lookup_insert_ne in H1 by done. intros ?. by eapply Hd.
      * rewrite lookup_insert_ne in H1 by done. rewrite lookup_insert_ne in H2 by done. by eapply Hsep.
  - apply map_eq. intros l. rewrite !vals_lookup. simpl.
    destruct (decide (l = h)) as [->|Hn1].
    { rewrite lookup_insert. destruct (w_mem w !! h) as [b|] eqn:E; [|done]. apply Hok in E. unfold h, a in E. lia. }
    rewrite lookup_insert_ne by done. destruct (decide (l = a)) as [->|Hn2].
    { rewrite lookup_insert. destruct (w_mem w !! a) as [b|] eqn:E; [|done]. apply Hok in E. unfold a in E. lia. }
    by rewrite lookup_insert_ne.
  - exists (Root (Link (At a) 0 0) s 0 0 (replicate 12 (PLink 0 None))). split; [simpl; apply lookup_insert|].
    simpl. by repeat constructor.
  - unfold h, a. lia.
  - unfold w', h, a. simpl. lia.
Qed.

(** ** Insertion *)

(** A new struct for k was made, nothing else changed but values. *)
Definition newcell w1 w2 (k : K) (p : ptr) : Prop :=
  w_ok w2 /\ (w_nxt w1 <= w_nxt w2)%positive /\
  (∀ l, (l < w_nxt w1)%positive -> keep (w_mem w1) (w_mem w2) l) /\
  cell L (w_mem w2) k p /\
  (∀ l, l ∈ ptr_locs p -> (w_nxt w1 <= l)%positive).

(** While the struct for k is made (for Mod: while the callback runs), other
    containers may change: w2 and G2 are what that leaves. *)
Lemma Inv_insert_gen (F' : fam K HS V CK U) op w G h s T k fuel :
  fam_ok F' L -> (∀ k d, nib F' s k d = nib F s k d) -> laws F' L ->
  Inv w G -> G !! h = Some (s, T) -> ly_ok L k -> 256 <= fuel -> clear F' L D s T k ->
  (∃ p, (k, p) ∈ leaves T /\ insert F' op fuel (Some h) k w = io_found op (ly_leaf L k p) w) \/
  ((∀ p, (k, p) ∉ leaves T) /\ ∃ (b : bool) w1,
    let mk := if b then io_new op else io_split op in
    quiet (λ l, l ∈ foot h T) w w1 /\ w_ok w1 /\
    (b = true -> io_early op = true -> w1 = w) /\
    (b = false -> ∃ q ck cp, (q, (ck, cp)) ∈ pleaves [] T /\ ck ≠ k /\ q = nibs F s k (length q)) /\
    (∀ w2, mk w1 = Panic w2 -> insert F' op fuel (Some h) k w = Panic w2) /\
    ∀ p w2 G2, mk w1 = Ret p w2 -> made L (region h T w w1) w1 w2 k p ->
      Inv w2 (base.delete h G2) ->
      (∀ h' s' T', h' ≠ h -> G2 !! h' = Some (s', T') -> ∀ l, l ∈ foot h' T' -> ¬ region h T w w1 l /\ l ∉ ptr_locs p) ->
      ∃ w' T', insert F' op fuel (Some h) k w = Ret tt w' /\
        Inv w' (<[h := (s, T')]> G2) /\ leaves T' ≡ₚ (k, p) :: leaves T /\
        quiet (region h T w w1) w2 w' /\
        ∀ l, l ∈ foot h T' -> l ∈ foot h T \/ l ∈ ptr_locs p \/
          (w_nxt w <= l < w_nxt w1)%positive \/ (w_nxt w2 <= l < w_nxt w')%positive).
Proof.
  intros HF' Hnib HL' HI Hh Hok Hf Hre.
  pose proof HI as [Hwok Hg Hsep]. destruct (Hg _ _ _ Hh) as [HQ HG].
  assert (Hpl : ∀ T, placed F s T <-> placed F' s T).
  { intros T0. unfold placed. apply Forall_proper; [|done]. intros [q [k0 p0]]. unfold well. cbn [fst snd].
    assert (nibs F s k0 (length q) = nibs F' s k0 (length q)) as ->; [|done].
    unfold nibs. apply map_ext. intros. by rewrite Hnib. }
  assert (HG' : Core.Good F' L D s w h T).
  { destruct HG as [HM Hp]. split; [done|]. by apply Hpl. }
  destruct (insert_spec F' L HF' D s HD HL' op w h T k fuel HG' Hwok Hok Hf Hre)
    as [?|(Habs & b & w1 & Hq & He & Hc & Hp & Hm)]; [by left|right].
  split; [done|]. exists b, w1. cbv zeta in *.
  assert (Hok1 : w_ok w1) by (by apply (qu_ok _ _ _ Hq)).
  split_and!; try done.
  { intros Hb. destruct (Hc Hb) as (q & ck & cp & H1 & H2 & H3). exists q, ck, cp. split_and!; [done..|].
    rewrite H3 at 1. unfold nibs. apply map_ext. intros. by rewrite Hnib. }
  intros p w2 G2 Hmk Hmade [Hok2 Hg2 Hsep2] Hdis.
  destruct (Hm p w2 Hmk Hmade) as (w' & T' & Hrun & Hq2 & HG2 & Hlv & Hfoot).
  exists w', T'. split; [done|]. split; [|done].
  assert (Hin2 : ∀ h' x, h' ≠ h -> G2 !! h' = Some x -> base.delete h G2 !! h' = Some x).
  { intros. by rewrite lookup_delete_ne. }
  assert (Hother : ∀ h2 s2 T2, h2 ≠ h -> G2 !! h2 = Some (s2, T2) -> ∀ l, l ∈ foot h T' -> l ∉ foot h2 T2).
  { intros h2 s2 T2 Hne H2 l Hl Hl2. destruct (Hdis _ _ _ Hne H2 _ Hl2) as [Hr Hp2].
    destruct (Hfoot l Hl) as [?|[?|[?|?]]]; [by apply Hr; left|done|by apply Hr; right|].
    apply (Hin2 _ _ Hne), Hg2 in H2 as [_ H2]. eapply foot_lt in H2; [|done|exact Hl2]. lia. }
  constructor; [by apply (qu_ok _ _ _ Hq2)| |].
  - intros h2 s2 T2 H2. destruct (decide (h2 = h)) as [->|Hne].
    + rewrite lookup_insert in H2. injection H2 as <- <-. split; [done|].
      destruct HG2 as [HM Hpl2]. split; [done|]. by apply Hpl.
    + rewrite lookup_insert_ne in H2 by done. destruct (Hg2 _ _ _ (Hin2 _ _ Hne H2)) as [HQ2 HGd]. split; [done|].
      eapply Good_keep; [done|]. intros l Hl. apply keep_same. apply (qu_frame _ _ _ Hq2); [by eapply foot_lt|].
      by apply (Hdis _ _ _ Hne H2).
  - intros h1 s1 T1 h2 s2 T2 Hne H1 H2 l Hl.
    destruct (decide (h1 = h)) as [->|Hn1]; [|destruct (decide (h2 = h)) as [->|Hn2]].
    + rewrite lookup_insert in H1. injection H1 as <- <-. rewrite lookup_insert_ne in H2 by done. by eapply Hother.
    + rewrite lookup_insert in H2. injection H2 as <- <-. rewrite lookup_insert_ne in H1 by done. intros ?. by eapply Hother.
    + rewrite lookup_insert_ne in H1 by done. rewrite lookup_insert_ne in H2 by done.
      by eapply (Hsep2 h1 s1 T1 h2 s2 T2 Hne); [by apply Hin2..|].
Qed.

Lemma Inv_insert (F' : fam K HS V CK U) op w G h s T k fuel :
  fam_ok F' L -> (∀ k d, nib F' s k d = nib F s k d) -> laws F' L ->
  Inv w G -> G !! h = Some (s, T) -> ly_ok L k -> 256 <= fuel -> clear F' L D s T k ->
  (∃ p, (k, p) ∈ leaves T /\ insert F' op fuel (Some h) k w = io_found op (ly_leaf L k p) w) \/
  ((∀ p, (k, p) ∉ leaves T) /\ ∃ (b : bool) w1,
    let mk := if b then io_new op else io_split op in
    quiet (λ l, l ∈ foot h T) w w1 /\ w_ok w1 /\
    (b = true -> io_early op = true -> w1 = w) /\
    (b = false -> ∃ q ck cp, (q, (ck, cp)) ∈ pleaves [] T /\ ck ≠ k /\ q = nibs F s k (length q)) /\
    (∀ w2, mk w1 = Panic w2 -> insert F' op fuel (Some h) k w = Panic w2) /\
    ∀ p w2, mk w1 = Ret p w2 -> newcell w1 w2 k p ->
      ∃ w' T', insert F' op fuel (Some h) k w = Ret tt w' /\
        Inv w' (<[h := (s, T')]> G) /\ leaves T' ≡ₚ (k, p) :: leaves T /\
        w_usr w' = w_usr w2 /\ vals w' = vals w2 /\
        quiet (region h T w w1) w2 w' /\
        ∀ l, l ∈ foot h T' -> l ∈ foot h T \/ (w_nxt w <= l)%positive).
Proof.
  intros HF' Hnib HL' HI Hh Hok Hf Hre.
  destruct (Inv_insert_gen F' op w G h s T k fuel HF' Hnib HL' HI Hh Hok Hf Hre)
    as [?|(Habs & b & w1 & Hq & Hok1 & He & Hc & Hp & Hm)]; [by left|right].
  split; [done|]. exists b, w1. cbv zeta in *. split_and!; try done.
  pose proof HI as [Hwok Hg Hsep]. destruct (Hg _ _ _ Hh) as [HQ HG].
  pose proof (qu_nxt _ _ _ Hq) as Hn1.
  intros p w2 Hmk (Hok2 & Hn2 & Hk2 & Hcell & Hp2).
  assert (Hreg : ∀ l, region h T w w1 l -> (l < w_nxt w1)%positive).
  { intros l [Hl|Hl]; [|lia]. assert (l < w_nxt w)%positive by (by eapply foot_lt). lia. }
  destruct (Hm p w2 G Hmk) as (w' & T' & Hrun & HI' & Hlv & Hq2 & Hfoot).
  { split_and!; try done. intros l Hl. apply Hk2. by apply Hreg. }
  { constructor; [done| |].
    - intros h' s' T' H'. apply lookup_delete_Some in H' as [Hne H']. destruct (Hg _ _ _ H') as [HQ' HG']. split; [done|].
      eapply Good_keep; [done|]. intros l Hl. assert (l < w_nxt w)%positive by (by eapply foot_lt).
      eapply keep_trans; [apply keep_same; apply (qu_frame _ _ _ Hq); [done|]|apply Hk2; lia].
      intros Hl'. by eapply (Hsep h' s' T' h s T).
    - intros h1 s1 T1 h2 s2 T2 Hne H1 H2. apply lookup_delete_Some in H1 as [_ H1]. apply lookup_delete_Some in H2 as [_ H2].
      by eapply Hsep. }
  { intros h' s' T' Hne H' l Hl. destruct (Hg _ _ _ H') as [_ HG']. assert (l < w_nxt w)%positive by (by eapply foot_lt).
    split; [|intros Hl2; apply Hp2 in Hl2; lia].
    intros [Hr|Hr]; [|lia]. by eapply (Hsep h' s' T' h s T). }
  exists w', T'. split_and!; try done.
  - by apply (qu_usr _ _ _ Hq2).
  - by eapply vals_quiet.
  - intros l Hl. destruct (Hfoot l Hl) as [?|[Hl2|[?|?]]]; [by left|right..]; [|lia..].
    apply Hp2 in Hl2. lia.
Qed.

(** ** Deletion *)
Lemma Inv_delete w G h s T k fuel : Inv w G -> G !! h = Some (s, T) -> ly_ok L k -> 256 <= fuel ->
  (∃ p q w' T', (k, p) ∈ leaves T /\ (q, (k, p)) ∈ pleaves [] T /\
     delete F fuel (Some h) k w = Ret tt w' /\ Inv w' (<[h := (s, T')]> G) /\
     leaves T ≡ₚ (k, p) :: leaves T' /\ w_usr w' = w_usr w /\ vals w' = vals w /\
     quiet (λ l, l ∈ foot h T) w w' /\
     (clean w h -> length q <= 12 -> clean w' h) /\
     ∀ l, l ∈ foot h T' -> l ∈ foot h T \/ (w_nxt w <= l)%positive) \/
  ((∀ p, (k, p) ∉ leaves T) /\ ∃ w', delete F fuel (Some h) k w = Ret tt w' /\ Inv w' G /\
     sbp h w w' /\ w_usr w' = w_usr w /\ vals w' = vals w).
Proof.
  intros HI Hh Hok Hf. pose proof HI as [Hwok Hg Hsep]. destruct (Hg _ _ _ Hh) as [HQ HG].
  destruct (delete_spec F L HF D s HD HL w h T k fuel HG Hwok Hok Hf)
    as [(p & q & Hin & Hpin & w' & T' & Hrun & Hq & HG' & Hlv & Hfoot & Hcl)|(Habs & w' & Hrun & Hs)].
  - left. exists p, q, w', T'. split_and!; try done.
    + eapply (Inv_update w w' G h s T T' HI Hh); [by apply (qu_ok _ _ _ Hq)| |done|].
      * intros l Hl Hnf. apply keep_same. by apply (qu_frame _ _ _ Hq).
      * intros l Hl. destruct (Hfoot l Hl); [by left|right; lia].
    + by apply (qu_usr _ _ _ Hq).
    + by eapply vals_quiet.
    + intros l Hl. destruct (Hfoot l Hl); [by left|right; lia].
  - right. split; [done|]. exists w'.
    assert (Hq : quiet (λ l, l = h) w w') by (by eapply sbp_quiet).
    split_and!; try done.
    + rewrite <- (insert_id G h (s, T)) by done.
      eapply (Inv_update w w' G h s T T HI Hh).
      * by apply (qu_ok _ _ _ Hq).
      * intros l Hl Hnf. apply keep_same. apply (qu_frame _ _ _ Hq); [done|]. intros ->. apply Hnf. unfold foot. set_solver +.
      * by eapply Good_sbp.
      * auto.
    + by apply (qu_usr _ _ _ Hq).
    + by eapply vals_quiet.
Qed.

(** ** Lookup *)
Lemma Inv_find w G h s T k fuel : Inv w G -> G !! h = Some (s, T) -> ly_ok L k -> 256 <= fuel ->
  (∃ p, (k, p) ∈ leaves T /\ cell L (w_mem w) k p /\ find F fuel (Some h) k w = Ret (Some (ly_leaf L k p)) w) \/
  ((∀ p, (k, p) ∉ leaves T) /\ find F fuel (Some h) k w = Ret None w).
Proof.
  intros HI Hh Hok Hf. destruct (in_good _ _ HI _ _ _ Hh) as [HQ HG].
  destruct (find_spec F L HF D s HD HL w h T k fuel HG Hok Hf) as [(p & H1 & H2)|H]; [left|by right].
  exists p. split_and!; try done. by eapply Good_ok.
Qed.

(** ** Counters *)
Lemma Inv_root w G h s T : Inv w G -> G !! h = Some (s, T) ->
  ∃ rt, w_mem w !! h = Some (BRoot rt) /\ rt_len rt = u64 (N.of_nat (length (leaves T))) /\
    rt_dep rt = u64 (N.of_nat (sumdep 0 T)).
Proof.
  intros HI Hh. destruct (in_good _ _ HI _ _ _ Hh) as [HQ [[(rt & Hr & _ & _ & Hl & Hd & _) _ _ _] _]].
  exists rt. done.
Qed.

(** ** Storing a value *)
Lemma Inv_store w G (l : loc) v v0 ck u : Inv w G -> w_mem w !! l = Some (BKv v0 ck) ->
  Inv (World (<[l := BKv v ck]> (w_mem w)) (w_nxt w) u) G.
Proof.
  intros HI Hl. apply (Inv_keep w); [done| |].
  - intros l' b Hb. simpl in *. destruct (decide (l' = l)) as [->|Hne].
    + by eapply (in_ok _ _ HI).
    + rewrite lookup_insert_ne in Hb by done. by eapply (in_ok _ _ HI).
  - intros l' _. simpl. destruct (decide (l' = l)) as [->|Hne].
    + intros b Hb. rewrite Hl in Hb. injection Hb as <-. exists (BKv v ck). rewrite lookup_insert.
      split; [done|]. right. eauto.
    + apply keep_same. by rewrite lookup_insert_ne.
Qed.
Lemma Inv_usr w G u : Inv w G -> Inv (World (w_mem w) (w_nxt w) u) G.
Proof. intros HI. apply (Inv_keep w); [done|apply (in_ok _ _ HI)|]. intros l _. by apply keep_same. Qed.
End heap.
