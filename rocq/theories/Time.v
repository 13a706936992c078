(** How often the programs of PAmt.v access memory. *)
From stdpp Require Import base numbers list gmap.
From Verif Require Import GoInt Mem Prog PAmt ProgSim TimeSpec.
From Verif Require Amt.
From Verif Require Import BitsFacts Descend Split.
Local Open Scope nat_scope.

Section budget.
Context {V CK U : Type}.
Local Notation M := (prog V CK U).

(** Every run of the program makes at most n accesses, and if it returns a with n'
    accesses left then Q a n'. *)
Fixpoint wp {A} (n : nat) (p : M A) (Q : A -> nat -> Prop) : Prop :=
  match p with
  | PRet a => Q a n
  | PPanic | PFault | PHang => True
  | PRead _ k => match n with O => False | S n => ∀ b, wp n (k b) Q end
  | PWrite _ _ k => match n with O => False | S n => wp n k Q end
  | PAlloc _ k => match n with O => False | S n => ∀ l, wp n (k l) Q end
  | PGet k => ∀ u, wp n (k u) Q
  | PPut _ k => wp n k Q
  end.
Definition atmost {A} (n : nat) (p : M A) : Prop := wp n p (λ _ _, True).

Lemma wp_mono {A} (p : M A) (Q Q' : A -> nat -> Prop) : (∀ a n, Q a n -> Q' a n) -> ∀ n, wp n p Q -> wp n p Q'.
Proof.
  intros HQ. induction p as [a| | | |l k IH|l bl k IH|bl k IH|k IH|u k IH]; intros n; simpl; try done; auto.
  - destruct n; [done|]. auto.
  - destruct n; [done|]. auto.
  - destruct n; [done|]. auto.
Qed.
(** A budget that is larger by m. *)
Lemma wp_more {A} (p : M A) (Q Q' : A -> nat -> Prop) m : (∀ a n, Q a n -> Q' a (m + n)) -> ∀ n, wp n p Q -> wp (m + n) p Q'.
Proof.
  intros HQ. induction p as [a| | | |l k IH|l bl k IH|bl k IH|k IH|u k IH]; intros n; simpl; try done; auto.
  - destruct n; [done|]. rewrite Nat.add_succ_r. auto.
  - destruct n; [done|]. rewrite Nat.add_succ_r. auto.
  - destruct n; [done|]. rewrite Nat.add_succ_r. auto.
Qed.
Lemma wp_bind {A B} (p : M A) (f : A -> M B) Q n : wp n p (λ a n', wp n' (f a) Q) -> wp n (bind p f) Q.
Proof.
  revert n. induction p as [a| | | |l k IH|l bl k IH|bl k IH|k IH|u k IH]; intros n; simpl; try done; auto.
  - destruct n; [done|]. auto.
  - destruct n; [done|]. auto.
  - destruct n; [done|]. auto.
Qed.
Lemma atmost_mono {A} (p : M A) n n' : n <= n' -> atmost n p -> atmost n' p.
Proof. intros Hn. replace n' with (n' - n + n) by lia. by apply wp_more. Qed.
(** Spending c of the budget. *)
Lemma wp_spend {A} (p : M A) (Q : A -> nat -> Prop) c n : atmost c p -> c <= n -> (∀ a n', n - c <= n' -> Q a n') -> wp n p Q.
Proof.
  intros Hp Hc HQ. replace n with (n - c + c) by lia. eapply wp_more; [|exact Hp]. intros a n' _. apply HQ. lia.
Qed.
Lemma bind_spend {A B} (p : M A) (f : A -> M B) Q c n : atmost c p -> c <= n -> (∀ a n', n - c <= n' -> wp n' (f a) Q) -> wp n (bind p f) Q.
Proof. intros Hp Hc HQ. apply wp_bind. by eapply wp_spend. Qed.
Lemma atmost_spend {A B} (p : M A) (f : A -> M B) c n : atmost c p -> c <= n -> (∀ a n', n - c <= n' -> atmost n' (f a)) -> atmost n (bind p f).
Proof. apply bind_spend. Qed.
Lemma atmost_bind {A B} n n1 n2 (p : M A) (f : A -> M B) : n1 + n2 <= n -> atmost n1 p -> (∀ a, atmost n2 (f a)) -> atmost n (bind p f).
Proof. intros Hn Hp Hf. eapply bind_spend; [exact Hp|lia|]. intros a n' Hn'. eapply atmost_mono; [|apply Hf]. lia. Qed.
Lemma atmost_cost {A} (p : M A) : ∀ n w, atmost n p -> cost p w <= n.
Proof.
  unfold atmost. induction p as [a| | | |l k IH|l b k IH|b k IH|k IH|u k IH]; intros n w; simpl; try lia.
  - destruct n; [done|]. intros Hk. destruct (w_mem w !! l) as [b|]; [|lia]. specialize (IH b n w (Hk b)). lia.
  - destruct n; [done|]. intros Hk. destruct (w_mem w !! l) as [b0|]; [|lia]. pose proof (IH n (set_mem w (<[l := b]> (w_mem w))) Hk). lia.
  - destruct n; [done|]. intros Hk.
    pose proof (IH (w_nxt w) n (World (<[w_nxt w := b]> (w_mem w)) (xO (w_nxt w)) (w_usr w)) (Hk _)). lia.
  - intros Hk. by apply IH.
  - intros Hk. by apply IH.
Qed.
Lemma cost_bind {A B} (p : M A) (f : A -> M B) : ∀ w,
  cost (bind p f) w = cost p w + match run p w with Ret a w' => cost (f a) w' | _ => 0 end.
Proof.
  induction p as [a| | | |l k IH|l b k IH|b k IH|k IH|u k IH]; intros w; simpl; try done.
  - destruct (w_mem w !! l) as [b|]; [|done]. by rewrite IH.
  - destruct (w_mem w !! l) as [b0|]; [|done]. by rewrite IH.
  - by rewrite IH.
Qed.
Lemma cost_bind_Ret {A B} (p : M A) (f : A -> M B) w a w' : run p w = Ret a w' -> cost (bind p f) w = cost p w + cost (f a) w'.
Proof. intros E. by rewrite cost_bind, E. Qed.

Lemma atmost_ret {A} n (a : A) : atmost n (ret a).
Proof. done. Qed.
Lemma atmost_alloc b : atmost 1 (alloc b : M _).
Proof. done. Qed.
Lemma atmost_load_root r : atmost 1 (load_root r : M _).
Proof. by intros []. Qed.
Lemma atmost_upd_root r f : atmost 2 (upd_root r f : M _).
Proof. by intros []. Qed.
Lemma atmost_load_link l : atmost 1 (load_link l : M _).
Proof. destruct l; try done; intros [ls| |]; simpl; try done. by destruct (ls !! i). Qed.
Lemma atmost_store_link l x : atmost 2 (store_link l x : M _).
Proof. destruct l; try done; intros [ls| |]; simpl; try done. by destruct (ls !! i). Qed.
Lemma atmost_load_kv p : atmost 1 (load_kv p : M _).
Proof. destruct p; [done|]. by intros []. Qed.
Lemma atmost_store_val p v : atmost 2 (store_val p v : M _).
Proof. destruct p; [done|]. by intros []. Qed.

Lemma atmost_array n : atmost 1 (new_link_array n : M _).
Proof. done. Qed.
Lemma atmost_upd_link l f : atmost 3 (upd_link l f : M _).
Proof. eapply (atmost_bind _ 1 2); [lia|apply atmost_load_link|]. intros x. apply atmost_store_link. Qed.
Lemma atmost_shift_up p idx m : atmost (3 * m) (shift_up p idx m : M _).
Proof.
  induction m as [|m IH]; cbn [shift_up]; [done|]. eapply (atmost_bind _ 1 (2 + 3 * m)); [lia|apply atmost_load_link|]. intros x.
  eapply (atmost_bind _ 2 (3 * m)); [lia|apply atmost_store_link|]. intros _. exact IH.
Qed.
Lemma atmost_copy_range src dst so d m : ∀ st, atmost (3 * m) (copy_range src dst so d st m : M _).
Proof.
  induction m as [|m IH]; intros st; cbn [copy_range]; [done|]. eapply (atmost_bind _ 1 (2 + 3 * m)); [lia|apply atmost_load_link|]. intros x.
  eapply (atmost_bind _ 2 (3 * m)); [lia|apply atmost_store_link|]. intros _. apply IH.
Qed.
Lemma atmost_count_in r x : atmost 4 (count_in r x : M _).
Proof. eapply (atmost_bind _ 2 2); [lia|apply atmost_upd_root|]. intros _. apply atmost_upd_root. Qed.

Lemma ones_count_32 x : ones_count32 x <= 32.
Proof.
  unfold ones_count32. assert (H : ∀ l : list N, length (List.filter (N.testbit x) l) <= length l); [|apply (H bit_indices)].
  induction l as [|i l IH]; simpl; [done|]. destruct (N.testbit x i); simpl; lia.
Qed.
Lemma idx_of_32 p r : Amt.idx_of p r <= 32.
Proof. apply ones_count_32. Qed.
Lemma idx_of_16 p r : (r < 16)%N -> Amt.idx_of p r <= 16.
Proof.
  intros Hr. unfold Amt.idx_of, ones_count32. set (f := N.testbit _).
  assert (Hf : ∀ i, (16 <= i < 32)%N -> f i = false).
  { intros i Hi. unfold f, andnot. rewrite N.ldiff_spec, testbit_mask by lia.
    destruct (N.leb_spec r i); [by rewrite andb_false_r|lia]. }
  assert (Hcut : ∀ n m, 16 <= n -> n + m <= 32 -> List.filter f (N.of_nat <$> seq n m) = []).
  { intros n m. revert n. induction m as [|m IH]; intros n Hn Hm; [done|]. cbn [seq fmap list_fmap List.filter].
    rewrite Hf by lia. apply IH; lia. }
  assert (Hlen : ∀ l : list N, length (List.filter f l) <= length l).
  { induction l as [|i l IH]; simpl; [done|]. destruct (f i); simpl; lia. }
  unfold bit_indices. change 32 with (16 + 16) at 1. rewrite seq_app, fmap_app, List.filter_app, app_length.
  rewrite (Hcut (0 + 16) 16) by lia. pose proof (Hlen (N.of_nat <$> seq 0 16)) as H. rewrite fmap_length, seq_length in H.
  cbn [length]. lia.
Qed.

Lemma atmost_path_push r p n l : atmost 3 (path_push r p n l : M _).
Proof.
  unfold path_push. destruct p as [m|]; [|done]. eapply (atmost_bind _ 1 2); [lia|apply atmost_load_root|]. intros rt.
  destruct (m <? 12); [|done]. eapply (atmost_bind _ 2 0); [lia|apply atmost_upd_root|]. done.
Qed.
Lemma atmost_path_get r p i : atmost 1 (path_get r p i : M _).
Proof.
  unfold path_get. destruct p as [m|q].
  - eapply (atmost_bind _ 1 0); [lia|apply atmost_load_root|]. intros rt. destruct (i <? m); [|done]. by destruct (rt_path rt !! i).
  - by destruct (q !! i).
Qed.
Lemma atmost_path_clear r p i : atmost 3 (path_clear r p i : M _).
Proof.
  unfold path_clear. eapply (atmost_bind _ 1 2); [lia|apply atmost_path_get|]. intros x. destruct p; [|done].
  eapply (atmost_bind _ 2 0); [lia|apply atmost_upd_root|]. done.
Qed.
Lemma atmost_path_pop r p i : atmost 4 (path_pop r p i : M _).
Proof.
  unfold path_pop. eapply (atmost_bind _ 1 3); [lia|apply atmost_path_get|]. intros x.
  eapply (atmost_bind _ 3 0); [lia|apply atmost_path_clear|]. intros p'. by destruct (pl_link x).
Qed.
Lemma dec8_S d : S d <= 255 -> dec8 (N.of_nat (S d)) = N.of_nat d.
Proof.
  intros Hd. unfold dec8, u8. replace (N.of_nat (S d) + 255)%N with (N.of_nat d + 1 * 256)%N by lia.
  rewrite N.mod_add by done. apply N.mod_small. lia.
Qed.
Lemma atmost_clear_path r fuel : ∀ d p n, d <= 255 -> 3 * d <= n -> atmost n (clear_path fuel r p (N.of_nat d) : M _).
Proof.
  induction fuel as [|fuel IH]; intros d p n Hd Hn; cbn [clear_path]; [done|]. destruct d as [|d]; [done|].
  destruct (N.eqb_spec (N.of_nat (S d)) 0); [lia|]. rewrite dec8_S by done.
  eapply bind_spend; [apply atmost_path_clear|lia|]. intros p' n' Hn'. apply IH; lia.
Qed.
Lemma wp_collapse r fuel : ∀ d p l c n, d <= 255 -> 14 * d + 1 <= n ->
  wp n (collapse fuel r p l (N.of_nat d) c : M _) (λ y n', ∃ d', y.2 = N.of_nat d' /\ d' <= 255 /\ 14 * d' <= n').
Proof.
  induction fuel as [|fuel IH]; intros d p l c n Hd Hn; cbn [collapse]; [done|].
  eapply bind_spend; [apply atmost_load_link|lia|]. intros lv n1 Hn1.
  destruct (_ && _) eqn:E; [|exists d; simpl; split_and!; [done|lia|lia]].
  destruct d as [|d]; [rewrite andb_false_r in E; done|]. clear E.
  eapply bind_spend; [apply atmost_load_link|lia|]. intros x n2 Hn2.
  eapply bind_spend; [apply atmost_store_link|lia|]. intros _ n3 Hn3.
  eapply bind_spend; [apply atmost_upd_root|lia|]. intros _ n4 Hn4. cbv zeta. rewrite dec8_S by done.
  eapply bind_spend; [apply atmost_path_pop|lia|]. intros [[p' rx] l'] n5 Hn5.
  eapply bind_spend; [apply atmost_upd_link|lia|]. intros _ n6 Hn6.
  eapply bind_spend; [apply atmost_load_link|lia|]. intros lv' n7 Hn7. apply IH; lia.
Qed.
Lemma wp_unlink r fuel : ∀ d p l idx c n m, d <= 255 -> idx <= 32 -> c <= 32 -> 15 * d + m <= n ->
  wp n (unlink fuel r p l idx (N.of_nat d) c : M _)
    (λ y n', ∃ d', y.1.2 = N.of_nat d' /\ d' <= 255 /\ y.1.1.2 <= 32 /\ y.2 <= 32 /\ 15 * d' + m <= n').
Proof.
  induction fuel as [|fuel IH]; intros d p l idx c n m Hd Hi Hc Hn; cbn [unlink]; [done|].
  destruct (_ && _) eqn:E; [|exists d; simpl; split_and!; [done|lia..]].
  destruct d as [|d]; [rewrite andb_false_r in E; done|]. clear E.
  eapply bind_spend; [apply atmost_upd_link|lia|]. intros _ n1 Hn1. cbv zeta. rewrite dec8_S by done.
  eapply bind_spend; [apply atmost_path_pop|lia|]. intros [[p' rx] l'] n2 Hn2.
  eapply bind_spend; [apply atmost_load_link|lia|]. intros lv n3 Hn3.
  eapply bind_spend; [apply atmost_upd_link|lia|]. intros _ n4 Hn4.
  eapply bind_spend; [apply atmost_upd_link|lia|]. intros _ n5 Hn5.
  eapply bind_spend; [apply atmost_load_link|lia|]. intros lv' n7 Hn7.
  apply IH; [lia|apply idx_of_32|apply ones_count_32|lia].
Qed.
Lemma atmost_remove {HS} fuel r p (h : HS * N) d l idx n : d <= 255 -> idx <= 32 -> 15 * d + 220 <= n ->
  atmost n (remove fuel r p h (N.of_nat d) l idx : M _).
Proof.
  intros Hd Hi Hn. unfold remove.
  eapply atmost_spend; [apply atmost_upd_link|lia|]. intros _ n1 Hn1.
  eapply atmost_spend; [apply atmost_upd_link|lia|]. intros _ n2 Hn2.
  eapply atmost_spend; [apply atmost_upd_root|lia|]. intros _ n3 Hn3.
  eapply atmost_spend; [apply atmost_upd_root|lia|]. intros _ n4 Hn4.
  eapply atmost_spend; [apply atmost_path_clear|lia|]. intros p' n5 Hn5.
  eapply atmost_spend; [apply atmost_load_link|lia|]. intros lv n6 Hn6. apply wp_bind.
  eapply wp_mono; [|apply (wp_unlink r fuel d p' l idx _ n6 200); [done|done|apply ones_count_32|lia]].
  intros [[[[p2 l2] idx2] d2] c2] n7 (d' & E & Hd' & Hi2 & Hc2 & Hn7). cbn [fst snd] in *. subst d2.
  match goal with |- wp ?n ?p _ => change (atmost n p) end.
  eapply atmost_spend; [apply atmost_load_link|lia|]. intros lv2 n8 Hn8.
  eapply (atmost_spend _ _ 100); [|lia|].
  { destruct (_ && _); [|done]. eapply atmost_spend; [apply atmost_array|lia|]. intros a m1 Hm1.
    eapply atmost_spend; [apply atmost_upd_link|lia|]. intros _ m2 Hm2. eapply atmost_mono; [|apply atmost_copy_range]. lia. }
  intros _ n9 Hn9. eapply atmost_spend; [apply atmost_load_link|lia|]. intros lv3 n10 Hn10.
  eapply (atmost_spend _ _ 96); [eapply atmost_mono; [|apply atmost_copy_range]; lia|lia|]. intros _ n11 Hn11.
  apply wp_bind. eapply wp_mono; [|apply wp_collapse; [done|lia]].
  intros [p3 d3] n12 (d'' & E & Hd'' & Hn12). cbn [fst snd] in *. subst d3. apply atmost_clear_path; [done|lia].
Qed.
End budget.

Section ops.
Context {K HS V CK U : Type} (F : fam K HS V CK U).
Local Notation M := (prog V CK U).

(** ** Insertion *)
Variable op : insop V CK U.
Hypothesis Hnew : atmost 4 (io_new op).
Hypothesis Hsplit : atmost 4 (io_split op).

Lemma atmost_add_item r k h d l idx : idx <= 16 -> atmost 169 (add_item F op r k h d l idx).
Proof.
  intros Hi. unfold add_item. eapply (atmost_spend _ _ 4); [|lia|].
  { destruct (io_early op); [|done]. eapply atmost_spend; [exact Hnew|lia|]. done. }
  intros early n1 Hn1. assert (Hmk : atmost 4 (match early with Some p => ret p | None => io_new op end)) by (by destruct early).
  eapply atmost_spend; [apply atmost_load_link|lia|]. intros lv n2 Hn2. pose proof (ones_count_32 (lk_pmap lv)) as Hc.
  eapply (atmost_spend _ _ 154); [|lia|].
  - destruct (_ || _).
    + eapply atmost_spend; [apply atmost_shift_up|lia|]. intros _ m1 Hm1. eapply atmost_spend; [exact Hmk|lia|]. intros p m2 Hm2.
      eapply atmost_mono; [|apply atmost_store_link]. lia.
    + eapply atmost_spend; [apply atmost_array|lia|]. intros a m1 Hm1. eapply atmost_spend; [apply atmost_upd_link|lia|]. intros _ m2 Hm2.
      eapply atmost_spend; [apply atmost_copy_range|lia|]. intros _ m3 Hm3. eapply atmost_spend; [exact Hmk|lia|]. intros p m4 Hm4.
      eapply atmost_spend; [apply atmost_store_link|lia|]. intros _ m5 Hm5. eapply atmost_mono; [|apply atmost_copy_range]. lia.
  - intros _ n3 Hn3. eapply atmost_spend; [apply atmost_upd_link|lia|]. intros _ n4 Hn4.
    eapply atmost_spend; [apply atmost_upd_link|lia|]. intros _ n5 Hn5. eapply atmost_mono; [|apply atmost_count_in]. lia.
Qed.

(** A split runs once for each digit that the keys share from here on, and once more. *)
Variable FM : Amt.fam K HS V CK U.
Hypothesis HF : famsim F FM.
Lemma atmost_split r s k ck cp j : ∀ fuel d h ch item n,
  Amt.radix_of (adv FM s k d h j) ≠ Amt.radix_of (adv FM s ck d ch j) -> 1 <= j -> d + j <= 255 -> 7 * j + 18 <= n ->
  atmost n (split F op fuel r s k ck cp h ch item (N.of_nat d)).
Proof.
  induction j as [|j IH]; intros fuel d h ch item n Hne Hj Hd Hn; [lia|].
  destruct fuel as [|fuel]; cbn [split]; [done|]. cbv zeta. rewrite !(advance_eq _ _ HF).
  replace (u8 (N.of_nat d + 1)) with (N.of_nat (S d)).
  2:{ unfold u8. rewrite N.mod_small by lia. lia. }
  rewrite <- !adv_S in Hne.
  set (h' := Amt.advance FM s k (N.of_nat (S d)) h) in *. set (ch' := Amt.advance FM s ck (N.of_nat (S d)) ch) in *.
  eapply atmost_spend; [apply atmost_upd_link|lia|]. intros _ n1 Hn1.
  destruct (Amt.bit_of (Amt.radix_of h') =? Amt.bit_of (Amt.radix_of ch'))%N eqn:Eb; cbn [negb].
  - eapply atmost_spend; [apply atmost_array|lia|]. intros a n2 Hn2. eapply atmost_spend; [apply atmost_upd_link|lia|]. intros _ n3 Hn3.
    apply IH; [exact Hne| |lia|lia].
    destruct j; [|lia]. exfalso. apply Hne. cbn [adv]. apply N.eqb_eq in Eb. apply bit_of_inj in Eb; [exact Eb|..];
      (eapply N.lt_trans; [apply radix_of_lt|reflexivity]).
  - eapply atmost_spend; [apply atmost_upd_link|lia|]. intros _ n2 Hn2. eapply atmost_spend; [apply atmost_array|lia|]. intros a n3 Hn3.
    eapply atmost_spend; [apply atmost_upd_link|lia|]. intros _ n4 Hn4. eapply atmost_spend; [exact Hsplit|lia|]. intros p n5 Hn5.
    eapply atmost_spend; [apply atmost_load_link|lia|]. intros iv n6 Hn6. eapply (atmost_spend _ _ 6); [|lia|].
    { destruct (_ <? _)%N; (eapply atmost_spend; [apply atmost_upd_link|lia|]; intros _ m Hm; eapply atmost_mono; [|apply atmost_upd_link]; lia). }
    intros _ n7 Hn7. eapply atmost_mono; [|apply atmost_count_in]. lia.
Qed.
End ops.

(** ** The traversal *)
Definition rest {HS A} (x : Amt.found (HS:=HS) A) : nat :=
  match x with Amt.Missing n _ _ _ _ => n | Amt.Present n _ _ _ _ _ => n end.
Definition level {HS A} (x : Amt.found (HS:=HS) A) : N :=
  match x with Amt.Missing _ _ d _ _ => d | Amt.Present _ _ d _ _ _ => d end.

Section descend.
Context {K HS V CK U : Type} (F : fam K HS V CK U).
Local Notation M := (prog V CK U).

(** The cost is that of the rounds, and the depth at the end is not greater than their
    number. *)
Lemma descend_time {A} (visit : A -> N -> lref -> M A) c s k fuel : (∀ a n l, atmost c (visit a n l)) ->
  ∀ h l d acc w x w', run (descend F visit fuel s k h l (N.of_nat d) acc) w = Ret x w' -> d <= 255 ->
  cost (descend F visit fuel s k h l (N.of_nat d) acc) w + S c * rest x <= S c * fuel /\
  ∃ d', level x = N.of_nat d' /\ d' <= 255 /\ S (d' + rest x) <= d + fuel.
Proof.
  intros Hv. induction fuel as [|fuel IH]; intros h l d acc w x w'; cbn [descend]; [done|]. intros Hr Hd.
  rewrite run_bind in Hr. unfold Mem.bind in Hr. destruct (run (load_link l) w) as [lv w1| | |] eqn:El; try done.
  rewrite (cost_bind_Ret _ _ _ _ _ El). pose proof (atmost_cost _ 1 w (atmost_load_link l)) as H1.
  destruct (N.land (lk_pmap lv) _ =? 0)%N.
  { injection Hr as <- <-. cbn [cost ret rest level]. split; [lia|]. exists d. lia. }
  rewrite run_bind in Hr. unfold Mem.bind in Hr. destruct (run (visit acc _ l) w1) as [acc' w2| | |] eqn:Ev; try done.
  rewrite (cost_bind_Ret _ _ _ _ _ Ev). pose proof (atmost_cost _ c w1 (Hv acc (Amt.radix_of h) l)) as H2.
  destruct (N.land (lk_tmap lv) _ =? 0)%N.
  - assert (Hu : u8 (N.of_nat d + 1) = N.of_nat (S d `mod` 256)).
    { unfold u8. rewrite Nat2N.inj_mod. f_equal. lia. }
    rewrite Hu in Hr. rewrite Hu. pose proof (Nat.mod_upper_bound (S d) 256 ltac:(lia)). pose proof (Nat.mod_le (S d) 256 ltac:(lia)).
    apply IH in Hr as [H3 (d' & Hl & Hd' & Hs)]; [|lia]. split; [lia|]. exists d'. split; [done|]. lia.
  - injection Hr as <- <-. cbn [cost ret rest level]. split; [lia|]. exists d. lia.
Qed.
End descend.
