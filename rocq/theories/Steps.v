(** Execution lemmas for the primitives of Mem.v and Amt.v. *)
From stdpp Require Import base numbers list gmap.
From Verif Require Import GoInt Mem Amt.
Local Open Scope nat_scope.

Section steps.
Context {V CK U : Type}.
Local Notation block := (block V CK).
Local Notation world := (world V CK U).
Local Notation M := (M V CK U).
Local Notation mem := (gmap loc block).
Implicit Types (m : mem) (w : world).

Lemma bind_ret {A B} (a : A) (f : A -> M B) w : bind (ret a) f w = f a w.
Proof. done. Qed.
Lemma bind_Ret {A B} (c : M A) (f : A -> M B) w a w1 :
  c w = Ret a w1 -> bind c f w = f a w1.
Proof. intros H. unfold bind. by rewrite H. Qed.
Lemma bind_Panic {A B} (c : M A) (f : A -> M B) w w1 :
  c w = Panic w1 -> bind c f w = Panic w1.
Proof. intros H. unfold bind. by rewrite H. Qed.
Lemma bind_Hang {A B} (c : M A) (f : A -> M B) w : c w = Hang -> bind c f w = Hang.
Proof. intros H. unfold bind. by rewrite H. Qed.
Lemma bind_Fault {A B} (c : M A) (f : A -> M B) w : c w = Fault -> bind c f w = Fault.
Proof. intros H. unfold bind. by rewrite H. Qed.
Lemma bind_assoc {A B C} (c : M A) (f : A -> M B) (g : B -> M C) w :
  bind (bind c f) g w = bind c (λ x, bind (f x) g) w.
Proof. unfold bind. by destruct (c w). Qed.
Lemma bind_ext {A B} (c : M A) (f g : A -> M B) w :
  (∀ a w, f a w = g a w) -> bind c f w = bind c g w.
Proof. intros H. unfold bind. destruct (c w); auto. Qed.
Lemma bind_inv_Ret {A B} (c : M A) (f : A -> M B) w b w2 :
  bind c f w = Ret b w2 -> ∃ a w1, c w = Ret a w1 /\ f a w1 = Ret b w2.
Proof. unfold bind. destruct (c w); naive_solver. Qed.

(** ** References *)
Definition base (l : lref) : option loc :=
  match l with RootRef r => Some r | SlotRef a _ => Some a | WildRef => None end.

Definition link_at m (l : lref) : option link :=
  match l with
  | RootRef r => match m !! r with Some (BRoot rt) => Some (rt_link rt) | _ => None end
  | SlotRef a i => match m !! a with Some (BLinks ls) => ls !! i | _ => None end
  | WildRef => None
  end.

Definition rt_with_link (x : link) (rt : root) : root :=
  Root x (rt_seed rt) (rt_len rt) (rt_dep rt) (rt_path rt).

Definition mroot m (r : loc) (f : root -> root) : mem :=
  match m !! r with Some (BRoot rt) => <[r := BRoot (f rt)]> m | _ => m end.

Definition put_link m (l : lref) (x : link) : mem :=
  match l with
  | RootRef r => mroot m r (rt_with_link x)
  | SlotRef a i =>
      match m !! a with Some (BLinks ls) => <[a := BLinks (<[i := x]> ls)]> m | _ => m end
  | WildRef => m
  end.

Lemma mroot_lookup m r f rt : m !! r = Some (BRoot rt) -> mroot m r f !! r = Some (BRoot (f rt)).
Proof. intros H. unfold mroot. rewrite H. apply lookup_insert. Qed.
Lemma mroot_lookup_ne m r f b : b ≠ r -> mroot m r f !! b = m !! b.
Proof. intros H. unfold mroot. case_match; [|done]. case_match; [done..|]. by apply lookup_insert_ne. Qed.
Lemma mroot_mroot m r f g : mroot (mroot m r f) r g = mroot m r (λ rt, g (f rt)).
Proof.
  unfold mroot. destruct (m !! r) as [[| |rt]|] eqn:E; rewrite ?E; try done.
  rewrite lookup_insert. by rewrite insert_insert.
Qed.

Lemma put_lookup_ne m l x b : base l ≠ Some b -> put_link m l x !! b = m !! b.
Proof.
  destruct l as [r|a i|]; simpl; intros H; try done.
  - apply mroot_lookup_ne. congruence.
  - case_match; [|done]. case_match; [|done..]. apply lookup_insert_ne. congruence.
Qed.

Lemma link_at_put m l x y : link_at m l = Some y -> link_at (put_link m l x) l = Some x.
Proof.
  destruct l as [r|a i|]; simpl; intros H; try done.
  - destruct (m !! r) as [[| |rt]|] eqn:E; try done.
    by rewrite (mroot_lookup _ _ _ _ E).
  - destruct (m !! a) as [[ls| |]|] eqn:E; try done.
    rewrite lookup_insert. apply list_lookup_insert. by eapply lookup_lt_Some.
Qed.

Lemma link_at_put_ne m l l' x : l ≠ l' -> link_at (put_link m l x) l' = link_at m l'.
Proof.
  intros Hne. destruct l as [r|a i|], l' as [r'|a' i'|]; simpl; try done.
  - rewrite mroot_lookup_ne by congruence. done.
  - unfold mroot. destruct (m !! r) as [[| |rt]|] eqn:E; try done.
    destruct (decide (r = a')) as [->|]; [by rewrite lookup_insert, E|].
    by rewrite lookup_insert_ne by done.
  - destruct (m !! a) as [[ls| |]|] eqn:E; try done.
    destruct (decide (a = r')) as [->|]; [by rewrite lookup_insert, E|].
    by rewrite lookup_insert_ne by done.
  - destruct (m !! a) as [[ls| |]|] eqn:E; try done.
    destruct (decide (a = a')) as [->|]; [|by rewrite lookup_insert_ne by done].
    rewrite lookup_insert, E. apply list_lookup_insert_ne. congruence.
Qed.

Lemma put_put m l x y : put_link (put_link m l x) l y = put_link m l y.
Proof.
  destruct l as [r|a i|]; simpl; try done.
  - by rewrite mroot_mroot.
  - destruct (m !! a) as [[ls| |]|] eqn:E; rewrite ?E; try done.
    by rewrite lookup_insert, insert_insert, list_insert_insert.
Qed.

Lemma link_at_insert_ne m l b B : base l ≠ Some b -> link_at (<[b := B]> m) l = link_at m l.
Proof. destruct l; simpl; intros H; try done; rewrite lookup_insert_ne by congruence; done. Qed.

Lemma link_at_ext m m' l : (∀ b, base l = Some b -> m' !! b = m !! b) -> link_at m' l = link_at m l.
Proof. destruct l; simpl; intros H; try done; by rewrite H. Qed.

Lemma link_at_mroot m r f l : (∀ rt, rt_link (f rt) = rt_link rt) ->
  link_at (mroot m r f) l = link_at m l.
Proof.
  intros Hf. unfold mroot. destruct (m !! r) as [[| |rt]|] eqn:E; try done.
  destruct l as [r'|a i|]; simpl; try done.
  - destruct (decide (r = r')) as [->|]; [by rewrite lookup_insert, E, Hf|].
    by rewrite lookup_insert_ne by done.
  - destruct (decide (r = a)) as [->|]; [by rewrite lookup_insert, E|].
    by rewrite lookup_insert_ne by done.
Qed.

Lemma link_at_base m l x : link_at m l = Some x -> ∃ b, base l = Some b /\ is_Some (m !! b).
Proof.
  destruct l as [r|a i|]; simpl; intros H; try done.
  - exists r. split; [done|]. by destruct (m !! r).
  - exists a. split; [done|]. by destruct (m !! a).
Qed.

(** ** Primitive steps *)
Lemma load_link_step l w x : link_at (w_mem w) l = Some x -> load_link l w = Ret x w.
Proof.
  destruct l as [r|a i|]; simpl; intros H; try done.
  - destruct (w_mem w !! r) as [[| |rt]|]; naive_solver.
  - destruct (w_mem w !! a) as [[ls| |]|]; try done. by rewrite H.
Qed.

Lemma store_link_step l w x y : link_at (w_mem w) l = Some y ->
  store_link l x w = Ret tt (set_mem w (put_link (w_mem w) l x)).
Proof.
  destruct l as [r|a i|]; simpl; intros H; try done.
  - unfold mroot. destruct (w_mem w !! r) as [[| |rt]|]; naive_solver.
  - destruct (w_mem w !! a) as [[ls| |]|]; try done. by rewrite H.
Qed.

Lemma upd_link_step l w f x : link_at (w_mem w) l = Some x ->
  upd_link l f w = Ret tt (set_mem w (put_link (w_mem w) l (f x))).
Proof.
  intros H. unfold upd_link. rewrite (bind_Ret _ _ _ _ _ (load_link_step _ _ _ H)).
  by apply (store_link_step _ _ _ x).
Qed.

Lemma load_root_step r w rt : w_mem w !! r = Some (BRoot rt) -> load_root r w = Ret rt w.
Proof. intros H. unfold load_root. by rewrite H. Qed.

Lemma upd_root_step r f w rt : w_mem w !! r = Some (BRoot rt) ->
  upd_root r f w = Ret tt (set_mem w (mroot (w_mem w) r f)).
Proof. intros H. unfold upd_root, mroot. by rewrite H. Qed.

Lemma load_kv_step c w v k : w_mem w !! c = Some (BKv v k) -> load_kv (At c) w = Ret (v, k) w.
Proof. intros H. simpl. by rewrite H. Qed.

Lemma store_val_step c w v v' k : w_mem w !! c = Some (BKv v k) ->
  store_val (At c) v' w = Ret tt (set_mem w (<[c := BKv v' k]> (w_mem w))).
Proof. intros H. simpl. by rewrite H. Qed.

(** Capacity of a new array. *)
Definition arr_cap (n : nat) : nat :=
  if n <=? 4 then 4 else if n <=? 8 then 8 else if n <=? 12 then 12 else 16.

Lemma new_link_array_step n w :
  new_link_array n w =
    Ret (At (w_nxt w)) (World (<[w_nxt w := BLinks (replicate (arr_cap n) zero_link)]> (w_mem w))
                              (xO (w_nxt w)) (w_usr w)).
Proof. done. Qed.

Lemma arr_cap_ge n : n <= 16 -> n <= arr_cap n.
Proof. intros. unfold arr_cap. repeat case_match; rewrite ?Nat.leb_le, ?Nat.leb_gt in *; lia. Qed.

Lemma arr_cap_spec n : n ≠ 0 -> n <= 16 -> arr_cap n = 4 * ((n + 3) / 4).
Proof.
  intros H0 H1. do 17 (destruct n as [|n]; [by try lia|]). lia.
Qed.

(** ** Array loops *)
Lemma load_at_step a i w ls x : w_mem w !! a = Some (BLinks ls) -> ls !! i = Some x ->
  load_at (At a) i w = Ret x w.
Proof. intros H1 H2. apply load_link_step. simpl. by rewrite H1. Qed.

Lemma store_at_step a i w ls x : w_mem w !! a = Some (BLinks ls) -> i < length ls ->
  store_at (At a) i x w = Ret tt (set_mem w (<[a := BLinks (<[i := x]> ls)]> (w_mem w))).
Proof.
  intros H1 H2. destruct (lookup_lt_is_Some_2 ls i H2) as [y Hy].
  unfold store_at. rewrite (store_link_step _ _ _ y) by (simpl; by rewrite H1).
  simpl. by rewrite H1.
Qed.

Lemma set_mem_set_mem w m m' : set_mem (set_mem w m) m' = set_mem w m'.
Proof. done. Qed.

Lemma shift_up_spec a A B y C n w :
  w_mem w !! a = Some (BLinks (A ++ B ++ y :: C)) -> n = length B ->
  ∃ z, shift_up (At a) (length A) n w
       = Ret tt (set_mem w (<[a := BLinks (A ++ z :: B ++ C)]> (w_mem w))).
Proof.
  intros H ->. revert y C w H. induction B as [|b B IH] using rev_ind; intros y C w H.
  - exists y. simpl. unfold ret. f_equal. simpl in H. rewrite insert_id by done. by destruct w.
  - rewrite app_length, Nat.add_comm. cbn [length Nat.add shift_up].
    erewrite bind_Ret.
    2:{ eapply load_at_step; [exact H|]. rewrite <- !app_assoc.
        rewrite lookup_app_r by lia. replace (length A + length B - length A) with (length B) by lia.
        rewrite lookup_app_r by lia. by rewrite Nat.sub_diag. }
    erewrite bind_Ret.
    2:{ eapply store_at_step; [exact H|]. rewrite !app_length. simpl. lia. }
    destruct (IH b (b :: C) (set_mem w (<[a:=BLinks (A ++ B ++ b :: b :: C)]> (w_mem w)))) as [z Hz].
    { simpl. apply lookup_insert. }
    exists z.
    assert (<[length A + length B + 1 := b]> (A ++ (B ++ [b]) ++ y :: C) = A ++ B ++ b :: b :: C) as ->.
    { rewrite insert_app_r_alt by lia. f_equal.
      replace (length A + length B + 1 - length A) with (length (B ++ [b]) + 0)
        by (rewrite app_length; simpl; lia).
      rewrite insert_app_r. simpl. by rewrite <- app_assoc. }
    rewrite Hz. rewrite set_mem_set_mem. simpl. rewrite insert_insert.
    by rewrite <- app_assoc.
Qed.

Lemma copy_range_spec s t X1 B X2 Y1 D Y2 soff doff start n w :
  s ≠ t ->
  w_mem w !! s = Some (BLinks (X1 ++ B ++ X2)) ->
  w_mem w !! t = Some (BLinks (Y1 ++ D ++ Y2)) ->
  length X1 = start + soff -> length Y1 = start + doff -> length B = n -> length D = n ->
  copy_range (At s) (At t) soff doff start n w
  = Ret tt (set_mem w (<[t := BLinks (Y1 ++ B ++ Y2)]> (w_mem w))).
Proof.
  intros Hne. revert X1 B Y1 D start w. induction n as [|n IH]; intros X1 B Y1 D start w Hs Ht HX HY HB HD.
  - destruct B, D; try done. simpl. unfold ret. f_equal. simpl in Ht. rewrite insert_id by done.
    by destruct w.
  - destruct B as [|b B]; [done|]. destruct D as [|e D]; [done|].
    cbn [copy_range].
    erewrite bind_Ret.
    2:{ eapply load_at_step; [exact Hs|]. rewrite lookup_app_r by lia.
        replace (start + soff - length X1) with 0 by lia. done. }
    erewrite bind_Ret.
    2:{ eapply store_at_step; [exact Ht|]. rewrite !app_length. simpl. lia. }
    assert (<[start + doff := b]> (Y1 ++ (e :: D) ++ Y2) = (Y1 ++ [b]) ++ D ++ Y2) as ->.
    { rewrite insert_app_r_alt by lia. replace (start + doff - length Y1) with 0 by lia.
      simpl. by rewrite <- app_assoc. }
    erewrite (IH (X1 ++ [b]) B (Y1 ++ [b]) D (S start)).
    + rewrite set_mem_set_mem. simpl. rewrite insert_insert. by rewrite <- app_assoc.
    + simpl. rewrite lookup_insert_ne by done. rewrite Hs. by rewrite <- app_assoc.
    + simpl. apply lookup_insert.
    + rewrite app_length. simpl. lia.
    + rewrite app_length. simpl. lia.
    + simpl in HB. lia.
    + simpl in HD. lia.
Qed.

(** Shifting back within one array. *)
Lemma shift_down_spec a A x B C n w :
  w_mem w !! a = Some (BLinks (A ++ x :: B ++ C)) -> length B = n ->
  ∃ z, copy_range (At a) (At a) 1 0 (length A) n w
       = Ret tt (set_mem w (<[a := BLinks (A ++ B ++ z :: C)]> (w_mem w))).
Proof.
  intros H HB. revert A x B w H HB. induction n as [|n IH]; intros A x B w H HB.
  - destruct B; [|done]. exists x. simpl. unfold ret. f_equal. simpl in H.
    rewrite insert_id by done. by destruct w.
  - destruct B as [|b B]; [done|]. cbn [copy_range].
    erewrite bind_Ret.
    2:{ eapply load_at_step; [exact H|]. rewrite lookup_app_r by lia.
        replace (length A + 1 - length A) with 1 by lia. done. }
    erewrite bind_Ret.
    2:{ eapply store_at_step; [exact H|]. rewrite !app_length. simpl. lia. }
    assert (<[length A + 0 := b]> (A ++ x :: (b :: B) ++ C) = (A ++ [b]) ++ b :: B ++ C) as ->.
    { rewrite insert_app_r. simpl. by rewrite <- app_assoc. }
    destruct (IH (A ++ [b]) b B (set_mem w (<[a:=BLinks ((A ++ [b]) ++ b :: B ++ C)]> (w_mem w)))) as [z Hz].
    { simpl. apply lookup_insert. }
    { simpl in HB. lia. }
    exists z. replace (S (length A)) with (length (A ++ [b])) by (rewrite app_length; simpl; lia).
    rewrite Hz, set_mem_set_mem. simpl. rewrite insert_insert. by rewrite <- app_assoc.
Qed.
End steps.
