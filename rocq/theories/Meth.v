(** What the code of EAmt.v does, compared with that of Amt.v: the same, unless a key method
    panics. *)
From stdpp Require Import base numbers list gmap.
From Coq Require Import SpecFloat.
From Verif Require Import GoInt Mem Hash Amt Families Spec Client EAmt.
Local Open Scope nat_scope.

(** ** Worlds without the state of the key methods *)
Section worlds.
Context {V CK U C : Type}.
Local Notation ew := (world V CK (U * C)).

Definition erase (w : ew) : world V CK U := World (w_mem w) (w_nxt w) (w_usr w).1.

(** The same memory, but for the scratch paths of roots. *)
Definition nearly (m m' : gmap loc (block V CK)) : Prop := ∀ l,
  m' !! l = m !! l \/
  ∃ r p, m !! l = Some (BRoot r) /\ m' !! l = Some (BRoot (rt_with_path p r)) /\ length p = length (rt_path r).

Lemma nearly_refl m : nearly m m.
Proof. intros l. by left. Qed.
Lemma nearly_trans m1 m2 m3 : nearly m1 m2 -> nearly m2 m3 -> nearly m1 m3.
Proof.
  intros H1 H2 l. destruct (H1 l) as [E1|(r1&p1&A1&B1&L1)], (H2 l) as [E2|(r2&p2&A2&B2&L2)].
  - left. congruence.
  - right. exists r2, p2. split_and!; congruence.
  - right. exists r1, p1. split_and!; congruence.
  - right. exists r1, p2. rewrite B1 in A2. injection A2 as <-. split_and!; [done|by rewrite B2|].
    rewrite L2. simpl. done.
Qed.

Definition near (w w' : ew) : Prop :=
  nearly (w_mem w) (w_mem w') /\ w_nxt w' = w_nxt w /\ (w_usr w').1 = (w_usr w).1.
Lemma near_refl w : near w w.
Proof. split_and!; [apply nearly_refl|done|done]. Qed.
Lemma near_trans w1 w2 w3 : near w1 w2 -> near w2 w3 -> near w1 w3.
Proof. intros (?&?&?) (?&?&?). split_and!; [by eapply nearly_trans|congruence|congruence]. Qed.
End worlds.

(** ** Computations that agree *)
Section agree.
Context {V CK U C : Type} (bad : Prop).
Local Notation E := (M V CK (U * C)).
Local Notation P := (M V CK U).

(** If n returns, so does m, in the same state. *)
Definition follows {A B} (R : A -> B -> Prop) (m : E A) (n : P B) : Prop := ∀ w,
  match n (erase w) with
  | Ret b x => ∃ a w', m w = Ret a w' /\ erase w' = x /\ R a b
  | _ => True
  end.
(** If n returns, then m returns in the same state, or m panics with nothing changed. *)
Definition does_at {A B} (R : A -> B -> Prop) (m : E A) (n : P B) (w : world V CK (U * C)) : Prop :=
  match n (erase w) with
  | Ret b x => (∃ a w', m w = Ret a w' /\ erase w' = x /\ R a b) \/ (bad /\ ∃ w', m w = Panic w' /\ near w w')
  | _ => True
  end.
Definition does {A B} (R : A -> B -> Prop) (m : E A) (n : P B) : Prop := ∀ w, does_at R m n w.
(** And m changes nothing if it returns, either. *)
Definition tries {A B} (R : A -> B -> Prop) (m : E A) (n : P B) : Prop := ∀ w,
  match n (erase w) with
  | Ret b x => (∃ a w', m w = Ret a w' /\ erase w' = x /\ R a b /\ near w w') \/ (bad /\ ∃ w', m w = Panic w' /\ near w w')
  | _ => True
  end.

Lemma follows_does {A B} (R : A -> B -> Prop) m n : follows R m n -> does R m n.
Proof. intros H w. specialize (H w). unfold does_at. destruct (n (erase w)); [by left|done..]. Qed.
Lemma tries_does {A B} (R : A -> B -> Prop) m n : tries R m n -> does R m n.
Proof. intros H w. specialize (H w). unfold does_at. destruct (n (erase w)); [|done..]. destruct H as [(a1&w1&?&?&?&?)|H]; [left; eauto|by right]. Qed.

Lemma f_bind {A B A' B'} (R : A -> B -> Prop) (S : A' -> B' -> Prop) m n k l :
  follows R m n -> (∀ a b, R a b -> follows S (k a) (l b)) -> follows S (bind m k) (bind n l).
Proof.
  intros H1 H2 w. specialize (H1 w). unfold bind. destruct (n (erase w)) as [b x| | |]; [|done..].
  destruct H1 as (a & w' & -> & <- & HR). apply (H2 _ _ HR).
Qed.
Lemma t_bind {A B A' B'} (R : A -> B -> Prop) (S : A' -> B' -> Prop) m n k l :
  tries R m n -> (∀ a b, R a b -> tries S (k a) (l b)) -> tries S (bind m k) (bind n l).
Proof.
  intros H1 H2 w. specialize (H1 w). unfold bind. destruct (n (erase w)) as [b x| | |]; [|done..].
  destruct H1 as [(a & w' & -> & <- & HR & Hn)|(Hb & w' & -> & Hn)].
  - specialize (H2 _ _ HR w'). destruct (l b (erase w')) as [b2 x2| | |]; [|done..].
    destruct H2 as [(a2&w2&E2&?&?&?)|(?&w2&E2&?)].
    + left. exists a2, w2. split_and!; try done. by eapply near_trans.
    + right. split; [done|]. exists w2. split; [done|]. by eapply near_trans.
  - destruct (l b x); [|done..]. right. split; [done|]. by exists w'.
Qed.
Lemma d_bind_at {A B A' B'} (R : A -> B -> Prop) (S : A' -> B' -> Prop) m n k l w :
  tries R m n -> (∀ a b w', n (erase w) = Ret b (erase w') -> R a b -> does_at S (k a) (l b) w') -> does_at S (bind m k) (bind n l) w.
Proof.
  intros H1 H2. specialize (H1 w). unfold does_at, bind. destruct (n (erase w)) as [b x| | |] eqn:En; [|done..].
  destruct H1 as [(a & w' & -> & <- & HR & Hn)|(Hb & w' & -> & Hn)].
  - specialize (H2 _ _ w' eq_refl HR). unfold does_at in H2. destruct (l b (erase w')) as [b2 x2| | |]; [|done..].
    destruct H2 as [(a2&w2&E2&?&?)|(?&w2&E2&?)].
    + left. exists a2, w2. split_and!; done.
    + right. split; [done|]. exists w2. split; [done|]. by eapply near_trans.
  - destruct (l b x); [|done..]. right. split; [done|]. by exists w'.
Qed.
Lemma d_bind {A B A' B'} (R : A -> B -> Prop) (S : A' -> B' -> Prop) m n k l :
  tries R m n -> (∀ a b, R a b -> does S (k a) (l b)) -> does S (bind m k) (bind n l).
Proof. intros H1 H2 w. eapply d_bind_at; [exact H1|]. intros a b w' _ HR. by apply H2. Qed.
(** A step of m alone. *)
Lemma f_left {A B A' B'} (R : A -> B -> Prop) (S : A' -> B' -> Prop) m (b : B) k (l : P B') :
  follows R m (ret b) -> (∀ a, R a b -> follows S (k a) l) -> follows S (bind m k) l.
Proof.
  intros H1 H2 w. specialize (H1 w). unfold bind. simpl in H1. destruct H1 as (a & w' & -> & Ew & HR).
  rewrite <-Ew. apply (H2 _ HR).
Qed.
Lemma t_left {A B A' B'} (R : A -> B -> Prop) (S : A' -> B' -> Prop) m (b : B) k (l : P B') :
  tries R m (ret b) -> (∀ a, R a b -> tries S (k a) l) -> tries S (bind m k) l.
Proof.
  intros H1 H2. change l with (bind (ret b) (λ _, l)). apply (t_bind (λ a b', R a b /\ b' = b)).
  - intros w. specialize (H1 w). simpl in *. destruct H1 as [(a&w'&?&?&?&?)|H1]; [left|by right].
    exists a, w'. done.
  - intros a b' [HR _]. by apply H2.
Qed.
Lemma d_left_at {A B A' B'} (R : A -> B -> Prop) (S : A' -> B' -> Prop) m (b : B) k (l : P B') w :
  tries R m (ret b) -> (∀ a w', erase w' = erase w -> R a b -> does_at S (k a) l w') -> does_at S (bind m k) l w.
Proof.
  intros H1 H2. change l with (bind (ret b) (λ _, l)). apply (d_bind_at (λ a b', R a b /\ b' = b)).
  - intros w0. specialize (H1 w0). simpl in *. destruct H1 as [(a&w'&?&?&?&?)|H1]; [left|by right].
    exists a, w'. done.
  - intros a b' w' Ew [HR _]. apply H2; [|done]. unfold ret in Ew. assert (Ew' : erase w = erase w') by congruence. by rewrite Ew'.
Qed.
Lemma d_left {A B A' B'} (R : A -> B -> Prop) (S : A' -> B' -> Prop) m (b : B) k (l : P B') :
  tries R m (ret b) -> (∀ a, R a b -> does S (k a) l) -> does S (bind m k) l.
Proof. intros H1 H2 w. eapply d_left_at; [exact H1|]. intros a w' _ HR. by apply H2. Qed.
(** A call that panics where Amt.v is known to return would not be [follows]. *)
Lemma dd_bind_at {A B A' B'} (R : A -> B -> Prop) (S : A' -> B' -> Prop) m n (k : A -> A') (l : B -> B') w :
  does_at R m n w -> (∀ a b, R a b -> S (k a) (l b)) -> does_at S (bind m (λ a, ret (k a))) (bind n (λ b, ret (l b))) w.
Proof.
  intros H1 H2. unfold does_at, bind in *. destruct (n (erase w)) as [b x| | |]; [|done..].
  simpl. destruct H1 as [(a & w' & -> & <- & HR)|(Hb & w' & -> & Hn)].
  - left. exists (k a), w'. split_and!; auto.
  - right. split; [done|]. by exists w'.
Qed.

Lemma dd_bind {A B A' B'} (R : A -> B -> Prop) (S : A' -> B' -> Prop) m n (k : A -> A') (l : B -> B') :
  does R m n -> (∀ a b, R a b -> S (k a) (l b)) -> does S (bind m (λ a, ret (k a))) (bind n (λ b, ret (l b))).
Proof. intros H1 H2 w. by eapply dd_bind_at. Qed.

(** Steps that return at once. *)
Lemma f_ret {A B} (R : A -> B -> Prop) a b : R a b -> follows R (ret a) (ret b).
Proof. intros H w. simpl. exists a, w. done. Qed.
Lemma t_ret {A B} (R : A -> B -> Prop) a b : R a b -> tries R (ret a) (ret b).
Proof. intros H w. simpl. left. exists a, w. split_and!; try done; apply near_refl. Qed.
Lemma f_panic {A B} (R : A -> B -> Prop) m : follows R m (panic (A:=B)).
Proof. by intros w. Qed.
Lemma f_hang {A B} (R : A -> B -> Prop) m : follows R m (hang (A:=B)).
Proof. by intros w. Qed.
Lemma f_fault {A B} (R : A -> B -> Prop) m : follows R m (fault (A:=B)).
Proof. by intros w. Qed.
Lemma t_panic {A B} (R : A -> B -> Prop) m : tries R m (panic (A:=B)).
Proof. by intros w. Qed.
Lemma t_hang {A B} (R : A -> B -> Prop) m : tries R m (hang (A:=B)).
Proof. by intros w. Qed.
Lemma d_panic {A B} (R : A -> B -> Prop) m : does R m (panic (A:=B)).
Proof. by intros w. Qed.
Lemma d_hang {A B} (R : A -> B -> Prop) m : does R m (hang (A:=B)).
Proof. by intros w. Qed.

(** Memory. *)
Lemma t_load_root r : tries eq (load_root r) (load_root r).
Proof. intros w. unfold load_root. simpl. destruct (w_mem w !! r) as [[| |rt]|]; try done. left. exists rt, w. split_and!; try done; apply near_refl. Qed.
Lemma t_load_link l : tries eq (load_link l) (load_link l).
Proof.
  intros w. unfold load_link. simpl. destruct l as [r|a i|]; [| |done].
  - destruct (w_mem w !! r) as [[| |rt]|]; try done. left. exists (rt_link rt), w. split_and!; try done; apply near_refl.
  - destruct (w_mem w !! a) as [[ls| |]|]; try done. destruct (ls !! i) as [x|]; [|done]. left. exists x, w. split_and!; try done; apply near_refl.
Qed.
Lemma t_load_kv p : tries eq (load_kv p) (load_kv p).
Proof. intros w. unfold load_kv. simpl. destruct p as [|l]; [done|]. destruct (w_mem w !! l) as [[|v k|]|]; try done. left. exists (v, k), w. split_and!; try done; apply near_refl. Qed.
Lemma f_load_root r : follows eq (load_root r) (load_root r).
Proof. intros w. unfold load_root. simpl. destruct (w_mem w !! r) as [[| |rt]|]; try done. exists rt, w. done. Qed.
Lemma f_load_link l : follows eq (load_link l) (load_link l).
Proof.
  intros w. unfold load_link. simpl. destruct l as [r|a i|]; [| |done].
  - destruct (w_mem w !! r) as [[| |rt]|]; try done. exists (rt_link rt), w. done.
  - destruct (w_mem w !! a) as [[ls| |]|]; try done. destruct (ls !! i) as [x|]; [|done]. exists x, w. done.
Qed.
Lemma f_load_kv p : follows eq (load_kv p) (load_kv p).
Proof. intros w. unfold load_kv. simpl. destruct p as [|l]; [done|]. destruct (w_mem w !! l) as [[|v k|]|]; try done. exists (v, k), w. done. Qed.
Lemma f_upd_root r f : follows eq (upd_root r f) (upd_root r f).
Proof. intros w. unfold upd_root. simpl. destruct (w_mem w !! r) as [[| |rt]|]; try done. eexists _, _. done. Qed.
Lemma f_store_link l x : follows eq (store_link l x) (store_link l x).
Proof.
  intros w. unfold store_link. simpl. destruct l as [r|a i|]; [| |done].
  - destruct (w_mem w !! r) as [[| |rt]|]; try done. eexists _, _. done.
  - destruct (w_mem w !! a) as [[ls| |]|]; try done. destruct (ls !! i) as [y|]; [|done]. eexists _, _. done.
Qed.
Lemma f_store_val p v : follows eq (store_val p v) (store_val p v).
Proof. intros w. unfold store_val. simpl. destruct p as [|l]; [done|]. destruct (w_mem w !! l) as [[|v0 k|]|]; try done. eexists _, _. done. Qed.
Lemma f_alloc b : follows eq (alloc b) (alloc b).
Proof. intros w. simpl. eexists _, _. done. Qed.
Lemma f_get : follows (λ uc u, uc.1 = u) get_usr get_usr.
Proof. intros w. simpl. eexists _, _. done. Qed.
Lemma f_put uc u : uc.1 = u -> follows eq (put_usr uc) (put_usr u).
Proof. intros <- w. simpl. eexists _, _. done. Qed.

(** A key method whose answer, if it returns, is b. *)
Lemma t_meth {A} (f : C -> C * option A) b : (∀ c a, (f c).2 = Some a -> a = b) -> (∀ c, (f c).2 = None -> bad) ->
  tries eq (meth f) (ret b).
Proof.
  intros Hb Hp w. simpl. unfold meth, bind, get_usr, put_usr. simpl. destruct ((f (w_usr w).2).2) as [a|] eqn:E.
  - left. eexists _, _. split; [done|]. split; [done|]. split; [by eapply Hb|]. split_and!; [apply nearly_refl|done|done].
  - right. split; [by eapply Hp|]. eexists. split; [done|]. split_and!; [apply nearly_refl|done|done].
Qed.
Lemma f_meth {A} (f : C -> C * option A) b : (∀ c a, (f c).2 = Some a -> a = b) -> (∀ c, (f c).2 ≠ None) ->
  follows eq (meth f) (ret b).
Proof.
  intros Hb Hp w. simpl. unfold meth, bind, get_usr, put_usr. simpl. destruct ((f (w_usr w).2).2) as [a|] eqn:E.
  - eexists _, _. split; [done|]. split; [done|]. by eapply Hb.
  - by apply Hp in E.
Qed.
End agree.

(** ** The code without key methods *)
Section code.
Context {V CK U C : Type}.
Local Notation F := (follows (V:=V) (CK:=CK) (U:=U) (C:=C) eq).

Ltac fb := eapply (f_bind eq); [|let a := fresh "a" in let b := fresh "b" in intros a b <-].
Ltac fe := first [apply f_ret; done | apply f_load_link | apply f_load_root | apply f_store_link | apply f_upd_root
  | apply f_alloc | apply f_load_kv | apply f_store_val | apply f_panic | apply f_hang ].

Lemma f_upd_link l f : F (upd_link l f) (upd_link l f).
Proof. unfold upd_link. fb; [fe|]. fe. Qed.
Lemma f_new_link_array n : F (new_link_array n) (new_link_array n).
Proof. unfold new_link_array. fb; [fe|]. fe. Qed.
Lemma f_shift_up p i n : F (shift_up p i n) (shift_up p i n).
Proof. induction n as [|n IH]; simpl; [fe|]. unfold load_at, store_at. fb; [fe|]. fb; [fe|]. exact IH. Qed.
Lemma f_copy_range s d so do i n : F (copy_range s d so do i n) (copy_range s d so do i n).
Proof. revert i. induction n as [|n IH]; intros i; simpl; [fe|]. unfold load_at, store_at. fb; [fe|]. fb; [fe|]. apply IH. Qed.
Lemma f_count_in r n : F (count_in r n) (count_in r n).
Proof. unfold count_in. fb; [fe|]. fe. Qed.
Lemma f_New s : F (New s) (New s).
Proof. unfold New, new_root. fb; [fb; [fe|]; fe|]. fe. Qed.
Lemma f_Len h : F (Len h) (Len h).
Proof. unfold Len, root_len. destruct h; [|fe]. fb; [fe|]. fe. Qed.
Lemma f_Dep h : F (Dep h) (Dep h).
Proof. unfold Dep, root_dep. destruct h; [|fe]. fb; [fe|]. destruct (_ =? _)%N; fe. Qed.

Ltac fe' := first [fe | apply f_upd_link | apply f_new_link_array | apply f_shift_up | apply f_copy_range | apply f_count_in].

(** Inserting: what Set, Mod and Add do. *)
Record oprel (op : insop V CK (U * C)) (op' : insop V CK U) : Prop := OpRel {
  or_found : ∀ iv, F (io_found op iv) (io_found op' iv);
  or_new : F (io_new op) (io_new op');
  or_split : F (io_split op) (io_split op');
  or_early : io_early op = io_early op';
  or_check : io_check op' = false }.

Lemma f_add_item {K HS HS'} (B : fam K HS V CK (U * C)) (A : fam K HS' V CK U) op op' r k (h : HS * N) (h' : HS' * N) d l i :
  (∀ k p, f_leaf B k p = f_leaf A k p) -> oprel op op' -> h.2 = h'.2 ->
  F (add_item B op r k h d l i) (add_item A op' r k h' d l i).
Proof.
  intros Hl [Hfo Hne Hsp He Hc] Hh. unfold add_item. rewrite He.
  assert (Er : radix_of h = radix_of h') by (unfold radix_of; by rewrite Hh). rewrite Er.
  eapply (f_bind (λ a b, a = b)).
  { destruct (io_early op'); [|fe]. fb; [done|]. fe. }
  intros e e' ->. fb; [fe|]. eapply (f_bind eq).
  { destruct (_ || _).
    - fb; [fe'|]. eapply f_bind; [|intros p p' ->; rewrite Hl; fe]. destruct e'; [fe|done].
    - fb; [fe'|]. fb; [fe'|]. fb; [fe'|].
      eapply f_bind; [|intros p p' ->; rewrite Hl; fb; [fe|]; fe']. destruct e'; [fe|done]. }
  intros _ _ _. fb; [fe'|]. fb; [fe'|]. fe'.
Qed.

(** Deleting. *)
Lemma f_path_get r p i : F (path_get r p i) (path_get r p i).
Proof.
  unfold path_get. destruct p as [n|q].
  - fb; [fe|]. destruct (_ <? _); [|fe]. destruct (_ !! _); fe.
  - destruct (_ !! _); fe.
Qed.
Lemma f_path_clear r p i : F (path_clear r p i) (path_clear r p i).
Proof. unfold path_clear. fb; [apply f_path_get|]. destruct p; [fb; [fe|]; fe|fe]. Qed.
Lemma f_path_pop r p i : F (path_pop r p i) (path_pop r p i).
Proof. unfold path_pop. fb; [apply f_path_get|]. fb; [apply f_path_clear|]. destruct (pl_link _); fe. Qed.
Lemma f_unlink f n r p l i d c : f <= n -> F (unlink n r p l i d c) (unlink f r p l i d c).
Proof.
  revert n p l i d c. induction f as [|f IH]; intros n p l i d c Hn; [simpl; fe|].
  destruct n as [|n]; [lia|]. simpl. destruct (_ && _); [|fe].
  fb; [fe'|]. fb; [apply f_path_pop|]. destruct a0 as [[p' x] l'].
  fb; [fe|]. fb; [fe'|]. fb; [fe'|]. fb; [fe|]. apply IH. lia.
Qed.
Lemma f_collapse f n r p l d c : f <= n -> F (collapse n r p l d c) (collapse f r p l d c).
Proof.
  revert n p l d c. induction f as [|f IH]; intros n p l d c Hn; [simpl; fe|].
  destruct n as [|n]; [lia|]. simpl. fb; [fe|]. destruct (_ && _); [|fe].
  fb; [fe|]. fb; [fe|]. fb; [fe|]. fb; [apply f_path_pop|]. destruct a3 as [[p' x] l'].
  fb; [fe'|]. fb; [fe|]. apply IH. lia.
Qed.
Lemma f_clear_path f n r p d : f <= n -> F (clear_path n r p d) (clear_path f r p d).
Proof.
  revert n p d. induction f as [|f IH]; intros n p d Hn; [simpl; fe|].
  destruct n as [|n]; [lia|]. simpl. destruct (_ =? _)%N; [fe|]. fb; [apply f_path_clear|]. apply IH. lia.
Qed.
Lemma f_remove {HS HS'} f n r p (h : HS * N) (h' : HS' * N) d l i : f <= n -> h.2 = h'.2 ->
  F (remove n r p h d l i) (remove f r p h' d l i).
Proof.
  intros Hn Hh. unfold remove. assert (Er : radix_of h = radix_of h') by (unfold radix_of; by rewrite Hh). rewrite Er.
  fb; [fe'|]. fb; [fe'|]. fb; [fe|]. fb; [fe|]. fb; [apply f_path_clear|]. fb; [fe|]. fb; [by apply f_unlink|].
  destruct a5 as [[[[p' l'] i'] d'] c']. fb; [fe|]. eapply (f_bind eq).
  { destruct (_ && _); [|fe]. fb; [fe'|]. fb; [fe'|]. fe'. }
  intros _ _ _. fb; [fe|]. fb; [fe'|]. fb; [by apply f_collapse|]. by apply f_clear_path.
Qed.

(** Iterating. *)
Lemma f_scan_items rec rec' act act' l t n i p : (∀ x, F (rec x) (rec' x)) -> (∀ x, F (act x) (act' x)) ->
  F (scan_items rec act l t n i p) (scan_items rec' act' l t n i p).
Proof.
  intros Hr Ha. revert i p. induction n as [|n IH]; intros i p; simpl; [fe|].
  fb; [fe|]. eapply (f_bind eq).
  { destruct (negb _); [|apply Hr]. fb; [fe|]. apply Ha. }
  intros b0 b1 ->. destruct b1; [apply IH|fe].
Qed.
Lemma f_scan act act' f n l : f <= n -> (∀ x, F (act x) (act' x)) -> F (scan act n l) (scan act' f l).
Proof.
  revert n l. induction f as [|f IH]; intros n l Hn Ha; [simpl; fe|].
  destruct n as [|n]; [lia|]. simpl. fb; [fe|]. apply f_scan_items; [|done]. intros x. apply IH; [lia|done].
Qed.
End code.

(** ** The code with key methods *)
Section methods.
Context {K HS HS' V CK U C : Type} (bad : Prop) (E : efam K HS V CK U C) (A : fam K HS' V CK U).
Local Notation T := (tries (V:=V) (CK:=CK) (U:=U) (C:=C) bad).
Local Notation D := (does (V:=V) (CK:=CK) (U:=U) (C:=C) bad).
Local Notation F := (follows (V:=V) (CK:=CK) (U:=U) (C:=C)).

(** The states of the hash of key k agree. *)
Variable HR : K -> HS -> HS' -> Prop.
(** The hash of key k may be asked for at depth d without fear. *)
Variable dp : N -> K -> N -> Prop.
Definition hrel (k : K) (h : HS * N) (h' : HS' * N) : Prop := HR k h.1 h'.1 /\ h.2 = h'.2.

Record famrel : Prop := FamRel {
  fr_start : ∀ s k, T (hrel k) (e_start E s k) (ret (f_start A s k));
  fr_next : ∀ s k d h h', hrel k h h' -> T (hrel k) (e_next E s k d h) (ret (f_next A s k d h'));
  fr_deep : ∀ s k d h h', hrel k h h' -> (d mod 16 = 0)%N -> (d ≠ 0)%N -> (d < 256)%N -> dp s k d ->
    F (hrel k) (e_next E s k d h) (ret (f_next A s k d h'));
  fr_conf : ∀ f n s k ck d, f <= n ->
    T (λ o o', ∀ h', o' = Some h' -> ∃ h, o = Some h /\ hrel ck h h') (e_conf E n s k ck d) (ret (f_conf A f s k ck d));
  fr_eq : ∀ k ck, T eq (e_eq E k ck) (ret (f_eq A k ck));
  fr_key : ∀ iv, T eq (f_key (e_base E) iv) (f_key A iv);
  fr_leaf : ∀ k p, f_leaf (e_base E) k p = f_leaf A k p;
  fr_pair : ∀ k p x, f_pair (e_base E) k p x = f_pair A k p x }.
Hypothesis HF : famrel.

Lemma hrel_radix k h h' : hrel k h h' -> radix_of h = radix_of h'.
Proof. intros [_ Hh]. unfold radix_of. by rewrite Hh. Qed.
Lemma t_eadvance s k d h h' : hrel k h h' -> T (hrel k) (eadvance E s k d h) (ret (advance A s k d h')).
Proof.
  intros Hh. unfold eadvance, advance. destruct (negb _).
  - apply t_ret. destruct Hh as [H1 H2]. split; simpl; [done|by rewrite H2].
  - by apply (fr_next HF).
Qed.
Lemma f_eadvance s k d h h' : hrel k h h' -> (d ≠ 0)%N -> (d < 256)%N -> (d mod 16 = 0 -> dp s k d)%N -> F (hrel k) (eadvance E s k d h) (ret (advance A s k d h')).
Proof.
  intros Hh Hd Hd' Hp. unfold eadvance, advance. destruct (negb _) eqn:En.
  - apply f_ret. destruct Hh as [H1 H2]. split; simpl; [done|by rewrite H2].
  - apply negb_false_iff, N.eqb_eq in En. apply (fr_deep HF); auto.
Qed.

(** Where the two traversals stop. *)
Definition frel {X} (k : K) (x : @found HS X) (y : @found HS' X) : Prop :=
  match x, y with
  | Missing _ h d l a, Missing _ h' d' l' a' => hrel k h h' /\ d = d' /\ l = l' /\ a = a'
  | Present n h d l i a, Present f h' d' l' i' a' =>
      hrel k h h' /\ d = d' /\ l = l' /\ i = i' /\ a = a' /\ f <= n /\ N.to_nat d + f <= 255
  | _, _ => False
  end.

Lemma t_edescend {X} (visit : X -> N -> lref -> M V CK (U * C) X) (visit' : X -> N -> lref -> M V CK U X) f n s k h h' l d a :
  (∀ a r l, T eq (visit a r l) (visit' a r l)) -> f <= n -> N.to_nat d + f <= 256 -> hrel k h h' ->
  T (frel k) (edescend E visit n s k h l d a) (descend A visit' f s k h' l d a).
Proof.
  intros Hv. revert n h h' l d a. induction f as [|f IH]; intros n h h' l d a Hn Hd Hh; [simpl; apply t_hang|].
  destruct n as [|n]; [lia|]. simpl. rewrite (hrel_radix _ _ _ Hh).
  eapply (t_bind bad eq); [apply t_load_link|]. intros lv ? <-.
  destruct (_ =? _)%N. { apply t_ret. done. }
  eapply (t_bind bad eq); [apply Hv|]. intros a1 ? <-.
  destruct (_ =? _)%N.
  - eapply t_left; [by apply t_eadvance|]. intros h1 Hh1. apply IH; [lia| |done].
    unfold u8. assert ((d + 1) mod 256 <= d + 1)%N by (apply N.mod_le; lia). lia.
  - apply t_ret. simpl. split_and!; try done; lia.
Qed.
Lemma t_no_visit a r l : T eq (no_visit a r l) (no_visit a r l).
Proof. by apply t_ret. Qed.
Lemma t_path_push r p x l : T eq (path_push r p x l) (path_push r p x l).
Proof.
  unfold path_push. destruct p as [n|q]; [|by apply t_ret].
  eapply (t_bind bad eq); [apply t_load_root|]. intros rt ? <-.
  destruct (_ <? _)%nat; [|by apply t_ret].
  eapply (t_bind bad eq); [|intros ? ? _; by apply t_ret].
  intros w. unfold upd_root. simpl. destruct (w_mem w !! r) as [[| |rt']|] eqn:Er; try done.
  left. eexists _, _. split; [done|]. split; [done|]. split; [done|]. split_and!; try done.
  intros l'. simpl. destruct (decide (l' = r)) as [->|Hne].
  - right. eexists _, _. rewrite lookup_insert. split; [exact Er|]. split; [done|]. by rewrite insert_length.
  - left. by rewrite lookup_insert_ne.
Qed.

Lemma t_efind f n h k : f <= n -> f <= 256 -> T eq (efind E n h k) (find A f h k).
Proof.
  intros Hn Hf. unfold efind, find. destruct h as [r|]; [|apply t_panic].
  eapply (t_bind bad eq); [apply t_load_root|]. intros rt ? <-.
  eapply t_left; [apply (fr_start HF)|]. intros hs Hhs.
  eapply t_bind; [apply (t_edescend _ no_visit f); [apply t_no_visit|done|lia|exact Hhs]|].
  intros x y Hxy. destruct x, y; simpl in Hxy; try done; [by apply t_ret|].
  destruct Hxy as (_ & _ & _ & -> & _). eapply (t_bind bad eq); [apply t_load_link|]. intros iv ? <-.
  eapply (t_bind bad eq); [apply (fr_key HF)|]. intros ck ? <-.
  eapply t_left; [apply (fr_eq HF)|]. intros b ->. by apply t_ret.
Qed.
Lemma t_eptr f n h k : f <= n -> f <= 256 -> T eq (eptr_of E n h k) (ptr_of A f h k).
Proof.
  intros Hn Hf. unfold eptr_of, ptr_of. eapply (t_bind bad eq); [by apply t_efind|]. intros [iv|] ? <-; [|by apply t_ret].
  destruct (lk_ptr iv); [apply t_panic|by apply t_ret].
Qed.
Lemma t_eget f n z h k : f <= n -> f <= 256 -> T eq (eget E n z h k) (get A f z h k).
Proof.
  intros Hn Hf. unfold eget, get. eapply (t_bind bad eq); [by apply t_eptr|]. intros [|p] ? <-; [by apply t_ret|].
  eapply (t_bind bad eq); [apply t_load_kv|]. intros x ? <-. by apply t_ret.
Qed.
Lemma t_eval f n z h k : f <= n -> f <= 256 -> T eq (eval E n z h k) (val A f z h k).
Proof.
  intros Hn Hf. unfold eval, val. destruct h as [r|]; [|by apply t_ret].
  eapply (t_bind bad eq); [by apply t_eptr|]. intros [|p] ? <-; [by apply t_ret|].
  eapply (t_bind bad eq); [apply t_load_kv|]. intros x ? <-. by apply t_ret.
Qed.
Lemma t_ehas f n h k : f <= n -> f <= 256 -> T eq (ehas E n h k) (has A f h k).
Proof.
  intros Hn Hf. unfold ehas, has. eapply (t_bind bad eq); [by apply t_efind|]. intros x ? <-. by apply t_ret.
Qed.

Ltac fb := eapply (f_bind eq); [|let a := fresh "a" in let b := fresh "b" in intros a b <-].
Ltac fe' := first [apply f_ret; done | apply f_load_link | apply f_load_root | apply f_upd_root
  | apply f_upd_link | apply f_new_link_array | apply f_count_in].

(** While a stored key is moved down, the hashes asked for are without fear. *)
Fixpoint calm_path (f : nat) (s : N) (k ck : K) (h ch : HS' * N) (d : N) : Prop :=
  match f with
  | O => True
  | S f => ((d + 1) mod 16 = 0 -> dp s k (d + 1) /\ dp s ck (d + 1))%N /\
      let h := advance A s k (d + 1) h in
      let ch := advance A s ck (d + 1) ch in
      (bit_of (radix_of h) = bit_of (radix_of ch) -> calm_path f s k ck h ch (d + 1))
  end.
Lemma calm_all f s k ck h ch d : (∀ s k d, dp s k d) -> calm_path f s k ck h ch d.
Proof. intros Hd. revert h ch d. induction f as [|f IH]; intros h ch d; simpl; auto. Qed.

Lemma f_esplit op op' f n r s k ck cp h h' ch ch' item d : oprel op op' -> f <= n -> N.to_nat d + f <= 255 ->
  hrel k h h' -> hrel ck ch ch' -> calm_path f s k ck h' ch' d ->
  F eq (esplit E op n r s k ck cp h ch item d) (split A op' f r s k ck cp h' ch' item d).
Proof.
  intros Hop. pose proof (or_split _ _ Hop) as Hsp.
  revert n h h' ch ch' item d. induction f as [|f IH]; intros n h h' ch ch' item d Hn Hd Hh Hch Hcm; [simpl; apply f_hang|].
  destruct n as [|n]; [lia|]. simpl. destruct Hcm as [Hc1 Hc2].
  assert (Eu : u8 (d + 1) = (d + 1)%N). { unfold u8. apply N.mod_small. lia. }
  rewrite Eu.
  eapply f_left; [apply f_eadvance; [exact Hh|lia|lia|by intros [? _]%Hc1]|]. intros h1 Hh1.
  eapply f_left; [apply f_eadvance; [exact Hch|lia|lia|by intros [_ ?]%Hc1]|]. intros ch1 Hch1.
  rewrite (hrel_radix _ _ _ Hh1), (hrel_radix _ _ _ Hch1).
  fb; [fe'|]. destruct (negb _) eqn:Eb.
  - fb; [fe'|]. fb; [fe'|]. fb; [fe'|]. fb; [exact Hsp|]. fb; [fe'|]. eapply (f_bind eq); [|intros _ _ _; fe'].
    assert (Ep : ∀ k p l, F eq (upd_link l (f_pair (e_base E) k p)) (upd_link l (f_pair A k p))).
    { intros k0 p l. unfold upd_link. fb; [fe'|]. rewrite (fr_pair HF). apply f_store_link. }
    destruct (_ <? _)%N; (fb; [apply Ep|]; apply Ep).
  - fb; [fe'|]. fb; [fe'|]. apply IH; [lia|lia|done|done|].
    apply Hc2. by apply negb_false_iff, N.eqb_eq in Eb.
Qed.

Lemma d_eadd_present op op' f n r s k h h' d l item w : oprel op op' -> f <= n -> N.to_nat d + f <= 255 -> hrel k h h' ->
  (∀ iv w2 ck w3 ch', load_link item (erase w) = Ret iv w2 -> f_key A iv w2 = Ret ck w3 -> f_eq A k ck = false ->
     f_conf A f s k ck d = Some ch' -> calm_path f s k ck h' ch' d) ->
  does_at bad eq (eadd_present E op n r s k h d l item) (add_present A op' f r s k h' d l item) w.
Proof.
  intros Hop Hn Hd Hh Hcm. unfold eadd_present, add_present. rewrite (or_check _ _ Hop).
  eapply (d_bind_at bad eq); [apply t_load_link|]. intros iv ? w2 E2 <-.
  eapply (d_bind_at bad eq); [apply (fr_key HF)|]. intros ck ? w3 E3 <-.
  eapply d_left; [apply (fr_eq HF)|]. intros b ->.
  destruct (f_eq A k ck) eqn:Ee; [apply follows_does, (or_found _ _ Hop)|].
  eapply d_left; [by apply (fr_conf HF f)|]. intros o Ho.
  destruct (f_conf A f s k ck d) as [ch'|] eqn:Ec; [|apply d_hang].
  destruct (Ho ch' eq_refl) as (ch & -> & Hch). apply follows_does. simpl. rewrite (hrel_radix _ _ _ Hh).
  fb; [fe'|]. fb; [fe'|]. apply f_esplit; try done. by eapply Hcm.
Qed.

(** If an insertion of k moves down a stored key, the hashes asked for are without fear. *)
Definition calm_ins (f : nat) (h : option loc) (k : K) (w : world V CK U) : Prop :=
  match h with
  | None => True
  | Some r => ∀ rt f' h' d l item x w1 iv w2 ck w3 ch, w_mem w !! r = Some (BRoot rt) ->
      descend A no_visit f (rt_seed rt) k (f_start A (rt_seed rt) k) (RootRef r) 0 tt w = Ret (Present f' h' d l item x) w1 ->
      load_link item w1 = Ret iv w2 -> f_key A iv w2 = Ret ck w3 -> f_eq A k ck = false ->
      f_conf A f' (rt_seed rt) k ck d = Some ch -> calm_path f' (rt_seed rt) k ck h' ch d
  end.
Lemma calm_ins_all f h k w : (∀ s k d, dp s k d) -> calm_ins f h k w.
Proof. intros Hd. destruct h; [|done]. intros ???????????????????. by apply calm_all. Qed.
Lemma d_einsert op op' f n h k w : oprel op op' -> f <= n -> f <= 256 -> calm_ins f h k (erase w) ->
  does_at bad eq (einsert E op n h k) (insert A op' f h k) w.
Proof.
  intros Hop Hn Hf Hcm. unfold einsert, insert. destruct h as [r|]; [|apply d_panic].
  eapply (d_bind_at bad eq); [apply t_load_root|]. intros rt ? w1 E1 <-.
  assert (erase w1 = erase w /\ w_mem (erase w) !! r = Some (BRoot rt)) as [Ew Hrt].
  { unfold load_root in E1. destruct (w_mem (erase w) !! r) as [[| |rt']|]; try done. split; congruence. }
  eapply d_left_at; [apply (fr_start HF)|]. intros hs w2 Ew2 Hhs.
  eapply d_bind_at; [apply (t_edescend _ no_visit f); [apply t_no_visit|done|lia|exact Hhs]|].
  rewrite Ew2, Ew. intros x y w3 E3 Hxy. destruct x, y; simpl in Hxy; try done.
  - destruct Hxy as (Hh & -> & -> & _). rewrite (hrel_radix _ _ _ Hh). eapply (d_bind bad eq); [apply t_load_link|]. intros lv ? <-.
    apply follows_does, f_add_item; [apply (fr_leaf HF)|done|]. simpl. by destruct Hh.
  - destruct Hxy as (Hh & -> & -> & -> & _ & Hf' & Hd). apply d_eadd_present; try done.
    intros iv w4 ck w5 ch' E4 E5 Ee Ec. by eapply (Hcm rt).
Qed.
Lemma d_edelete f n h k : f <= n -> f <= 256 -> D eq (edelete E n h k) (delete A f h k).
Proof.
  intros Hn Hf. unfold edelete, delete, delete_gen. destruct h as [r|]; [|apply d_panic].
  eapply (d_bind bad eq); [apply t_load_root|]. intros rt ? <-.
  eapply d_left; [apply (fr_start HF)|]. intros hs Hhs.
  eapply d_bind; [apply (t_edescend _ (path_push r) f); [apply t_path_push|done|lia|exact Hhs]|].
  intros x y Hxy. destruct x, y; simpl in Hxy; try done; [by apply follows_does, f_ret|].
  destruct Hxy as (Hh & -> & -> & -> & -> & _). rewrite (hrel_radix _ _ _ Hh).
  eapply (d_bind bad eq); [apply t_load_link|]. intros iv ? <-.
  eapply (d_bind bad eq); [apply (fr_key HF)|]. intros ck ? <-.
  eapply d_left; [apply (fr_eq HF)|]. intros b ->.
  destruct (negb _); [by apply follows_does, f_ret|].
  eapply (d_bind bad eq); [apply t_load_link|]. intros lv ? <-.
  apply follows_does, f_remove; [done|]. simpl. by destruct Hh.
Qed.
End methods.
