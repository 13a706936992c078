(** Del without the loop that unlinks empty branches, for C35. *)
From stdpp Require Import base numbers list gmap.
From Verif Require Import GoInt Mem Amt BitsFacts Steps Tree Rep Paths Descend Insert Split Delete Remove Core.
Local Open Scope nat_scope.

Section nounlink.
Context {K HS V CK U : Type}.
Local Notation M := (M V CK U).
Local Notation world := (world V CK U).

(** Lines 350-395 of string_map.go without lines 356-366 (the [for count == 0 &&
    d > 0] loop). Otherwise the same as [remove] in Amt.v. *)
Definition remove_short (fuel : nat) (r : loc) (p : pathv) (h : HS * N) (d : N) (l : lref) (idx : nat)
    : M unit :=
  upd_link l (λ y, lk_with_pmap (andnot (lk_pmap y) (bit_of (radix_of h))) y) ;;;
  upd_link l (λ y, lk_with_tmap (andnot (lk_tmap y) (bit_of (radix_of h))) y) ;;;
  upd_root r (λ rt, rt_with_len (sub64 (rt_len rt) 1) rt) ;;;
  upd_root r (λ rt, rt_with_dep (sub64 (rt_dep rt) d) rt) ;;;
  p <- path_clear r p (N.to_nat d) ;;
  lv <- load_link l ;;
  let count := ones_count32 (lk_pmap lv) in
  lv <- load_link l ;;
  let src := lk_ptr lv in
  (if (count mod 4 =? 0)%nat && negb (d =? 0)%N
   then a <- new_link_array count ;;
        upd_link l (lk_with_ptr a) ;;;
        copy_range src a 0 0 0 idx
   else ret tt) ;;;
  lv <- load_link l ;;
  copy_range src (lk_ptr lv) 1 0 idx (count - idx) ;;;
  y <- collapse fuel r p l d count ;;
  clear_path fuel r y.1 y.2.

(** Lines 323-397 of string_map.go with [remove_short]; [miss] as in
    [delete_gen] of Amt.v. *)
Definition delete_short (F : fam K HS V CK U) (miss : bool -> bool) (fuel : nat) (h : option loc) (k : K) : M unit :=
  match h with
  | None => panic
  | Some r =>
      rt <- load_root r ;;
      res <- descend F (path_push r) fuel (rt_seed rt) k (f_start F (rt_seed rt) k)
               (RootRef r) 0 (PRoot 0) ;;
      match res with
      | Missing _ _ _ _ _ => ret tt
      | Present _ hs d l item p =>
          iv <- load_link item ;;
          ck <- f_key F iv ;;
          if miss (f_eq F k ck) then ret tt
          else
            lv <- load_link l ;;
            remove_short fuel r p hs d l (idx_of (lk_pmap lv) (radix_of hs))
      end
  end.

(** ** The loop is not entered *)
Lemma path_clear_link r p i (w : world) p' w' l : path_clear r p i w = Ret p' w' ->
  link_at (w_mem w') l = link_at (w_mem w) l.
Proof.
  unfold path_clear. intros H. apply bind_inv_Ret in H as (x & w1 & Hg & H).
  assert (w1 = w) as ->.
  { destruct p as [n|q]; unfold path_get in Hg.
    - apply bind_inv_Ret in Hg as (rt & w2 & Hl & Hg). unfold load_root in Hl.
      destruct (w_mem w !! r) as [[| |rt']|]; try done. injection Hl as <- <-.
      destruct (i <? n); [|done]. destruct (rt_path rt' !! i); [|done]. by injection Hg.
    - destruct (q !! i); [|done]. by injection Hg. }
  destruct p as [n|q].
  - apply bind_inv_Ret in H as ([] & w2 & Hu & H). injection H as <- <-.
    unfold upd_root in Hu. destruct (w_mem w !! r) as [[| |rt]|] eqn:E; try done. injection Hu as <-.
    simpl. transitivity (link_at (mroot (w_mem w) r (λ rt, rt_with_path (<[i:=PLink (pl_radix x) None]> (rt_path rt)) rt)) l).
    + unfold mroot. by rewrite E.
    + by apply link_at_mroot.
  - by injection H as <- <-.
Qed.

Lemma remove_is_short fuel r p (h : HS * N) d l idx (w : world) lv rt :
  link_at (w_mem w) l = Some lv -> w_mem w !! r = Some (BRoot rt) -> 0 < fuel ->
  ones_count32 (andnot (lk_pmap lv) (bit_of (radix_of h))) ≠ 0 \/ d = 0%N ->
  remove fuel r p h d l idx w = remove_short fuel r p h d l idx w.
Proof.
  intros Hl Hr Hf Hc. unfold remove, remove_short.
  rewrite !(bind_Ret _ _ _ _ _ (upd_link_step _ _ _ _ Hl)).
  assert (Hstep : ∀ A B (c : M A) (f g : A -> M B) w, (∀ a w', c w = Ret a w' -> f a w' = g a w') -> bind c f w = bind c g w).
  { intros A B c f g w0 H. unfold bind. destruct (c w0) eqn:E; try done. by apply H. }
  set (w1 := set_mem w _).
  set (lv1 := lk_with_pmap (andnot (lk_pmap lv) (bit_of (radix_of h))) lv).
  assert (H1 : link_at (w_mem w1) l = Some lv1) by (simpl; by eapply link_at_put).
  rewrite !(bind_Ret _ _ _ _ _ (upd_link_step _ _ _ _ H1)).
  set (w2 := set_mem w1 _).
  assert (H2 : ∃ lv2, link_at (w_mem w2) l = Some lv2 /\ lk_pmap lv2 = andnot (lk_pmap lv) (bit_of (radix_of h))).
  { eexists. split; [simpl; by eapply link_at_put|]. done. }
  destruct H2 as (lv2 & H2 & Hp). clearbody w2. clear w1 lv1 H1 Hl Hr.
  assert (Hu : ∀ f (w0 : world) u w0', (∀ rt, rt_link (f rt) = rt_link rt) -> upd_root (V:=V) (CK:=CK) (U:=U) r f w0 = Ret u w0' ->
     link_at (w_mem w0') l = link_at (w_mem w0) l).
  { intros f w0 u w0' Hf0 Hx. unfold upd_root in Hx. destruct (w_mem w0 !! r) as [[| |rt0]|] eqn:E; try done.
    injection Hx as _ <-. simpl. transitivity (link_at (mroot (w_mem w0) r f) l).
    - unfold mroot. by rewrite E.
    - by apply link_at_mroot. }
  apply Hstep. intros ? w3 E3. apply Hu in E3; [|done]. rewrite H2 in E3.
  apply Hstep. intros ? w4 E4. apply Hu in E4; [|done]. rewrite E3 in E4.
  apply Hstep. intros p5 w5 E5. apply (path_clear_link _ _ _ _ _ _ l) in E5. rewrite E4 in E5.
  rewrite !(bind_Ret _ _ _ _ _ (load_link_step _ _ _ E5)).
  rewrite Hp. destruct fuel as [|fuel]; [lia|]. cbn [unlink].
  assert ((ones_count32 (andnot (lk_pmap lv) (bit_of (radix_of h))) =? 0) && negb (d =? 0)%N = false) as ->.
  { destruct Hc as [Hc| ->]; [|by rewrite andb_false_r]. apply andb_false_iff. left. by apply Nat.eqb_neq. }
  rewrite bind_ret. rewrite !(bind_Ret _ _ _ _ _ (load_link_step _ _ _ E5)). done.
Qed.

Section good.
Variables (F : fam K HS V CK U) (L : layout K V CK) (D : nat) (seed : N).
Hypothesis HF : fam_ok F L.
Hypothesis HD : D <= 240.
Hypothesis HL : laws F L.

Lemma delete_is_short miss (w : world) r T k fuel : Good F L D seed w r T -> 256 <= fuel ->
  delete_gen F miss fuel (Some r) k w = delete_short F miss fuel (Some r) k w.
Proof.
  intros HG Hf.
  assert (Hh : hgt T <= S D) by apply HG.
  destruct (load_seed _ _ _ _ _ _ _ HG) as (rt & Hrt & Hs).
  assert (H12 : length (rt_path rt) = 12).
  { destruct HG as [[(rt' & Hr' & _ & _ & _ & _ & H) _ _ _] _]. rewrite Hrt in Hr'. by injection Hr' as <-. }
  unfold delete_gen, delete_short. rewrite !(bind_Ret _ _ _ _ _ (load_root_step _ _ _ Hrt)). rewrite Hs.
  set (J := λ (acc : pathv) (q : list (N * lref)) (w' : world), ∃ l tl, pview (w_mem w') r acc l tl).
  destruct (descend_spec F L (path_push r) J r seed k T) with (fuel := fuel)
    (c := @nil (frame K)) (t := T) (acc := PRoot 0) (w := w)
    as (c & a & acc & w1 & Hs1 & Hl & Hres); try done.
  - intros acc q radix l w0 (l0 & tl & Hv).
    destruct (path_push_spec _ _ radix l _ _ _ Hv) as (p' & w' & tl' & Hrun & Hsb & Hv' & Hk).
    exists p', w'. split_and!; try done. by eexists _, _.
  - by eapply Good_node.
  - by eapply Good_carries.
  - lia.
  - simpl. lia.
  - exists [], (rt_path rt), rt. done.
  - cbn [length hproc hole] in Hres. rewrite Nat.sub_0_r in Hres.
    destruct Hres as [(cs & Hst & _ & Hd)|(bef & k' & p & aft & Hst & HJ & Hd)].
    + rewrite !(bind_Ret _ _ _ _ _ Hd). done.
    + rewrite !(bind_Ret _ _ _ _ _ Hd).
      pose proof (Good_sbp _ _ _ _ _ _ _ _ HG Hs1) as HG1.
      assert (Hin : (k', p) ∈ leaves T) by (by eapply present_leaf).
      destruct (Good_ok _ _ _ _ _ _ _ _ _ HG1 Hin) as [Hok' Hcell].
      rewrite !(bind_Ret _ _ _ _ _ (load_link_step _ _ _ (item_at F L D seed _ _ _ _ _ _ _ _ _ _ HG1 Hst))).
      rewrite !(bind_Ret _ _ _ _ _ (fo_key _ _ HF _ _ _ Hok' Hcell)).
      destruct (miss (f_eq F k k')); [done|].
      destruct Hst as (HT & Hr).
      assert (HM : MapI L (S D) w1 r seed (plug c (Node a (bef ++ (nib F seed k (length c), Leaf k' p) :: aft)))).
      { rewrite HT. apply HG1. }
      destruct (MapI_hole _ _ _ _ _ _ _ _ HM) as (rt' & lks & rest & Hrt' & Hlk & Hrs & Ha & Hlena & Hfa).
      rewrite !(bind_Ret _ _ _ _ _ (load_link_step _ _ _ Hlk)).
      eapply remove_is_short; [exact Hlk|exact Hrt'|lia|]. cbn [lk_pmap].
      change (radix_of (hproc F seed k (length c))) with (nib F seed k (length c)).
      rewrite map_app in Hrs |- *. cbn [map fst] in *.
      destruct c as [|f c']; [by right|left].
      pose proof (mi_canon _ _ _ _ _ _ HM) as Hcan. apply canon_root_plug in Hcan as (_ & _ & Hok).
      specialize (Hok ltac:(done)).
      pose proof (radixes_notin _ _ _ Hrs) as Hnin. 
      assert (Hn16 : (nib F seed k (length (f :: c')) < 16)%N) by (by apply radixes_app_cons in Hrs as (_ & _ & ? & _)).
      rewrite (andnot_bit_of _ (map fst bef ++ map fst aft)); [|lia|].
      * rewrite ones_count_bits_of by (by eapply radixes_remove). rewrite app_length, !map_length.
        destruct bef, aft; simpl in *; lia.
      * intros i. clear -Hnin. set_solver.
Qed.
End good.
End nounlink.
