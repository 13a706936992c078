(** Iteration over a represented tree. *)
From stdpp Require Import base numbers list gmap.
From Verif Require Import GoInt Mem Amt BitsFacts Steps Tree Rep Descend.
Local Open Scope nat_scope.

Section scan.
Context {K V CK U : Type} (L : layout K V CK).
Local Notation world := (world V CK U).
Local Notation M := (M V CK U).
Local Notation tree := (tree K).
Local Notation frame := (frame K).
Implicit Types (w : world).

(** The calls that an iteration makes: one for each entry, in order, until one
    returns false. *)
Fixpoint visits (act : link -> M bool) (es : list (K * ptr)) : M bool :=
  match es with
  | [] => ret true
  | e :: es => b <- act (ly_leaf L e.1 e.2) ;; if (b : bool) then visits act es else ret false
  end.

Lemma visits_app act es1 es2 w :
  visits act (es1 ++ es2) w = (b <- visits act es1 ;; if (b : bool) then visits act es2 else ret false) w.
Proof.
  revert w. induction es1 as [|e es1 IH]; intros w; simpl; [done|].
  rewrite bind_assoc. unfold bind. destruct (act _ w) as [b w'| | |]; try done.
  destruct b; [|done]. rewrite IH. done.
Qed.

Section act.
Variables (act : link -> M bool) (r : loc) (T : tree).

(** I es w: with the entries es still to come, the world w is fine. *)
Section steps.
Variable I : list (K * ptr) -> world -> Prop.
Hypothesis HInv : ∀ es w, I es w -> carries L w r T.
Hypothesis Hact : ∀ k p es w w', I ((k, p) :: es) w -> act (ly_leaf L k p) w = Ret true w' -> I es w'.

Lemma visits_rest es rest : ∀ w w', I (es ++ rest) w -> visits act es w = Ret true w' -> I rest w'.
Proof.
  induction es as [|[k p] es IH]; intros w w' Hw; simpl; [by intros [= <-]|].
  intros (b1 & w1 & H1 & H2)%bind_inv_Ret. destruct b1; [|done].
  eapply IH; [|exact H2]. eapply Hact; [exact Hw|exact H1].
Qed.

Lemma scan_steps fuel : ∀ c t rest w, plug c t = T -> is_leaf t = false -> hgt t <= fuel -> I (leaves t ++ rest) w ->
  scan act fuel (hole r c) w = visits act (leaves t) w.
Proof.
  induction fuel as [|fuel IH]; intros c t rest w HT Hl Hf Hw; (destruct t as [|a cs]; [done|]); [simpl in Hf; lia|].
  assert (Hlk : ∀ es w', I es w' -> link_at (w_mem w') (hole r c) = Some (Link (At a) (bits_of (map fst cs)) (bits_of (lrads cs))) /\
    radixes (map fst cs)).
  { intros es w' Hw'. apply HInv in Hw' as [(rt & Hrt & Hrep) _]. rewrite <- HT in Hrep.
    destruct (rep_hole L _ _ _ _ _ Hrt Hrep) as (lk & H1 & H2). apply rep_node_inv in H2 as (-> & H2 & _). done. }
  assert (Hch : ∀ es w' bef n k p aft, I es w' -> cs = bef ++ (n, Leaf k p) :: aft ->
    link_at (w_mem w') (SlotRef a (length bef)) = Some (ly_leaf L k p)).
  { intros es w' bef n k p aft Hw' ->. apply HInv in Hw' as [(rt & Hrt & Hrep) _]. rewrite <- HT in Hrep.
    change (plug c (Node a (bef ++ (n, Leaf k p) :: aft))) with (plug (Frame a bef n aft :: c) (Leaf k p)) in Hrep.
    destruct (rep_hole L _ _ _ _ _ Hrt Hrep) as (lk & H1 & H2). apply rep_leaf_inv in H2 as (-> & _). exact H1. }
  destruct (Hlk _ w Hw) as [Hlk0 Hrs].
  cbn [scan]. rewrite (bind_Ret _ _ _ _ _ (load_link_step _ _ _ Hlk0)). cbn [lk_pmap lk_tmap].
  rewrite ones_count_bits_of by done. rewrite map_length.
  change (leaves (Node a cs)) with (flat_map (λ c0 : N * tree, leaves c0.2) cs).
  assert (Hloop : ∀ cs2 cs1 w', cs = cs1 ++ cs2 -> I (flat_map (λ c0 : N * tree, leaves c0.2) cs2 ++ rest) w' ->
    scan_items (scan act fuel) act (hole r c) (bits_of (lrads cs)) (length cs2) (length cs1) (bits_of (map fst cs2)) w'
    = visits act (flat_map (λ c0 : N * tree, leaves c0.2) cs2) w').
  2:{ apply (Hloop cs [] w eq_refl Hw). }
  clear Hlk0 w Hw. induction cs2 as [|[n t] cs2 IHcs]; intros cs1 w Hcs Hw; [done|].
  assert (Hrs' := Hrs). rewrite Hcs, map_app in Hrs'. cbn [map fst] in Hrs'.
  assert (Hn16 : (n < 16)%N) by (by apply radixes_app_cons in Hrs' as (_ & _ & ? & _)).
  assert (Hrs2 : radixes (n :: map fst cs2)) by (by apply radixes_app in Hrs' as [_ ?]).
  cbn [length scan_items map fst]. rewrite trailing_zeros_bits_of by done.
  change (shl32 1 n) with (bit_of n).
  destruct (Hlk _ w Hw) as [Hlk1 _].
  rewrite (bind_Ret _ _ _ _ _ (load_link_step _ _ _ Hlk1)). cbn [lk_ptr elem].
  rewrite land_bit_of by lia. rewrite negb_involutive.
  cbn [flat_map snd]. rewrite visits_app.
  cbn [flat_map snd] in Hw. rewrite <- app_assoc in Hw.
  assert (Hstep : (if bool_decide (n ∈ lrads cs) then iv <- load_link (SlotRef a (length cs1));; act iv
     else scan act fuel (SlotRef a (length cs1))) w = visits act (leaves t) w).
  { assert (Hlb : n ∈ lrads cs <-> is_leaf t = true).
    { rewrite Hcs. by apply leaf_child_bit. }
    destruct t as [k p|a' cs'].
    - rewrite bool_decide_true by (by apply Hlb).
      rewrite (bind_Ret _ _ _ _ _ (load_link_step _ _ _ (Hch _ w cs1 n k p cs2 Hw Hcs))).
      cbn [leaves visits fst snd]. unfold bind. destruct (act _ w) as [[]| | |]; done.
    - rewrite bool_decide_false by (rewrite Hlb; done).
      eapply (IH (Frame a cs1 n cs2 :: c)); [|done| |exact Hw].
      + cbn [plug]. unfold fill. cbn [fr_a fr_bef fr_r fr_aft]. by rewrite <- Hcs.
      + rewrite Hcs in Hf. apply hgt_node_le in Hf. apply Forall_app in Hf as [_ Hf].
        by apply Forall_cons in Hf as [Hf _]. }
  unfold bind at 1. rewrite Hstep. unfold bind.
  destruct (visits act (leaves t) w) as [b w'| | |] eqn:E; try done.
  destruct b; [|done].
  rewrite andnot_cons by done.
  replace (S (length cs1)) with (length (cs1 ++ [(n, t)])) by (rewrite app_length; simpl; lia).
  apply IHcs.
  - by rewrite <- app_assoc.
  - eapply visits_rest; [exact Hw|exact E].
Qed.
End steps.

(** An invariant that every call keeps. *)
Variable Inv : world -> Prop.
Hypothesis HInv : ∀ w, Inv w -> carries L w r T.
Hypothesis Hact : ∀ k p w b w', (k, p) ∈ leaves T -> Inv w ->
  act (ly_leaf L k p) w = Ret b w' -> Inv w'.
Lemma scan_spec fuel : ∀ c t w, plug c t = T -> is_leaf t = false -> hgt t <= fuel -> Inv w ->
  scan act fuel (hole r c) w = visits act (leaves t) w.
Proof.
  intros c t w HT Hl Hf Hw.
  eapply (scan_steps (λ es w, (∀ e, e ∈ es -> e ∈ leaves T) /\ Inv w)) with (rest := []); try done.
  - intros es w' [_ Hw']. by apply HInv.
  - intros k p es w1 w2 [Hs Hw1] Ha. split; [intros e He; apply Hs; by right|].
    eapply Hact; [|exact Hw1|exact Ha]. apply Hs. left.
  - split; [|done]. intros e He. rewrite app_nil_r in He. rewrite <- HT, leaves_plug. set_solver +He.
Qed.
End act.
End scan.
