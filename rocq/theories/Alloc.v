(** How many blocks the calls allocate. *)
From stdpp Require Import base numbers list gmap.
From Verif Require Import GoInt Mem Hash Amt Families BitsFacts Steps Tree Rep Paths Descend Insert Split Delete Remove Core Order Heap Spec DepthSpec Depth MemorySpec Memory Refine RefineSet Client.
Local Open Scope nat_scope.

Section allocs.
Context {V CK U : Type}.
Implicit Types (w : world V CK U).
Local Notation M := (M V CK U).

(** A computation that returns has allocated at most n blocks. *)
Definition allocs (n : nat) {A} (m : M A) : Prop := ∀ w a w', m w = Ret a w' -> size (w_mem w') <= n + size (w_mem w).

Lemma allocs_mono {A} n n' (m : M A) : n <= n' -> allocs n m -> allocs n' m.
Proof. intros Hn H w a w' E. apply H in E. lia. Qed.
Lemma allocs_bind {A B} n n1 n2 (m : M A) (f : A -> M B) : n1 + n2 <= n -> allocs n1 m -> (∀ a, allocs n2 (f a)) -> allocs n (bind m f).
Proof.
  intros Hn Hm Hf w b w' E. unfold bind in E. destruct (m w) as [a w1| | |] eqn:E1; try discriminate E.
  apply Hm in E1. apply Hf in E. lia.
Qed.
Lemma allocs_step {A B} n (m : M A) (f : A -> M B) : allocs 0 m -> (∀ a, allocs n (f a)) -> allocs n (bind m f).
Proof. by apply allocs_bind. Qed.
Lemma allocs_last {A B} n (m : M A) (f : A -> M B) : allocs n m -> (∀ a, allocs 0 (f a)) -> allocs n (bind m f).
Proof. apply allocs_bind. lia. Qed.
Lemma allocs_ret {A} n (a : A) : allocs n (ret a).
Proof. intros w b w' E. injection E as <- <-. lia. Qed.
Lemma allocs_panic {A} n : allocs n (panic (A:=A)).
Proof. intros w b w' E. discriminate E. Qed.
Lemma allocs_hang {A} n : allocs n (hang (A:=A)).
Proof. intros w b w' E. discriminate E. Qed.
Lemma allocs_fault {A} n : allocs n (fault (A:=A)).
Proof. intros w b w' E. discriminate E. Qed.
Lemma allocs_alloc b : allocs 1 (alloc b).
Proof.
  intros w a w' E. injection E as <- <-. cbn [w_mem]. rewrite map_size_insert.
  destruct (w_mem w !! w_nxt w); simpl; lia.
Qed.
Lemma size_over (m : gmap loc (block V CK)) l b b' : m !! l = Some b -> size (<[l := b']> m) = size m.
Proof. intros H. rewrite map_size_insert, H. done. Qed.
Lemma allocs_load_root n r : allocs n (load_root r).
Proof. intros w a w' E. unfold load_root in E. destruct (w_mem w !! r) as [[]|]; try discriminate E. injection E as _ <-. lia. Qed.
Lemma allocs_upd_root n r f : allocs n (upd_root r f).
Proof.
  intros w a w' E. unfold upd_root in E. destruct (w_mem w !! r) as [[]|] eqn:Er; try discriminate E. injection E as _ <-.
  simpl. rewrite (size_over _ _ _ _ Er). lia.
Qed.
Lemma allocs_load_link n l : allocs n (load_link l).
Proof.
  intros w a w' E. unfold load_link in E. destruct l as [r|a0 i|].
  - destruct (w_mem w !! r) as [[]|]; try discriminate E. injection E as _ <-. lia.
  - destruct (w_mem w !! a0) as [[ls| |]|]; try discriminate E. destruct (ls !! i); try discriminate E. injection E as _ <-. lia.
  - discriminate E.
Qed.
Lemma allocs_store_link n l x : allocs n (store_link l x).
Proof.
  intros w a w' E. unfold store_link in E. destruct l as [r|a0 i|].
  - destruct (w_mem w !! r) as [[]|] eqn:Er; try discriminate E. injection E as _ <-. simpl. rewrite (size_over _ _ _ _ Er). lia.
  - destruct (w_mem w !! a0) as [[ls| |]|] eqn:Er; try discriminate E. destruct (ls !! i); try discriminate E. injection E as _ <-.
    simpl. rewrite (size_over _ _ _ _ Er). lia.
  - discriminate E.
Qed.
Lemma allocs_load_kv n p : allocs n (load_kv p).
Proof.
  intros w a w' E. unfold load_kv in E. destruct p as [|l]; [discriminate E|].
  destruct (w_mem w !! l) as [[]|]; try discriminate E. injection E as _ <-. lia.
Qed.
Lemma allocs_store_val n p v : allocs n (store_val p v).
Proof.
  intros w a w' E. unfold store_val in E. destruct p as [|l]; [discriminate E|].
  destruct (w_mem w !! l) as [[]|] eqn:Er; try discriminate E. injection E as _ <-. simpl. rewrite (size_over _ _ _ _ Er). lia.
Qed.
Lemma allocs_get_usr n : allocs n get_usr.
Proof. intros w a w' E. injection E as _ <-. lia. Qed.
Lemma allocs_put_usr n u : allocs n (put_usr u).
Proof. intros w a w' E. injection E as _ <-. simpl. lia. Qed.
End allocs.

(** Steps that allocate nothing, or once. *)
Ltac grows := repeat first
  [ apply allocs_ret | apply allocs_panic | apply allocs_hang | apply allocs_fault
  | apply allocs_load_root | apply allocs_upd_root | apply allocs_load_link | apply allocs_store_link
  | apply allocs_load_kv | apply allocs_store_val | apply allocs_get_usr | apply allocs_put_usr
  | assumption
  | apply allocs_step; [|intros ?] ].

Section ops.
Context {K HS V CK U : Type}.
Implicit Types (w : world V CK U).
Local Notation M := (M V CK U).

Lemma allocs_array n : allocs (V:=V) (CK:=CK) (U:=U) 1 (new_link_array n).
Proof. unfold new_link_array. apply allocs_last; [apply allocs_alloc|]. intros. grows. Qed.
Lemma allocs_upd_link n l f : allocs (V:=V) (CK:=CK) (U:=U) n (upd_link l f).
Proof. unfold upd_link. grows. Qed.
Lemma allocs_load_at n p i : allocs (V:=V) (CK:=CK) (U:=U) n (load_at p i).
Proof. apply allocs_load_link. Qed.
Lemma allocs_store_at n p i x : allocs (V:=V) (CK:=CK) (U:=U) n (store_at p i x).
Proof. apply allocs_store_link. Qed.
Lemma allocs_shift_up n p idx m : allocs (V:=V) (CK:=CK) (U:=U) n (shift_up p idx m).
Proof.
  induction m as [|m IH]; cbn [shift_up]; [grows|]. apply allocs_step; [apply allocs_load_at|]. intros x.
  apply allocs_step; [apply allocs_store_at|]. intros. exact IH.
Qed.
Lemma allocs_copy_range n src dst so d m : ∀ st, allocs (V:=V) (CK:=CK) (U:=U) n (copy_range src dst so d st m).
Proof.
  induction m as [|m IH]; intros st; cbn [copy_range]; [grows|]. apply allocs_step; [apply allocs_load_at|]. intros x.
  apply allocs_step; [apply allocs_store_at|]. intros. apply IH.
Qed.
Lemma allocs_count_in n r x : allocs (V:=V) (CK:=CK) (U:=U) n (count_in r x).
Proof. unfold count_in. grows. Qed.

Variable F : fam K HS V CK U.

Lemma allocs_descend {A} (visit : A -> N -> lref -> M A) s k fuel : (∀ a n l, allocs 0 (visit a n l)) ->
  ∀ h l d acc, allocs 0 (descend F visit fuel s k h l d acc).
Proof.
  intros Hv. induction fuel as [|fuel IH]; intros h l d acc; cbn [descend]; [grows|].
  apply allocs_step; [grows|]. intros lv. destruct (_ =? _)%N; [grows|].
  apply allocs_step; [apply Hv|]. intros acc'. destruct (_ =? _)%N; [apply IH|grows].
Qed.
Lemma allocs_no_visit a n l : allocs (V:=V) (CK:=CK) (U:=U) 0 (no_visit a n l).
Proof. unfold no_visit. grows. Qed.

(** ** Lookups *)
Lemma allocs_find fuel oh k : (∀ iv, allocs 0 (f_key F iv)) -> allocs 0 (find F fuel oh k).
Proof.
  intros Hk. unfold find. destruct oh as [r|]; [|grows]. apply allocs_step; [grows|]. intros rt.
  apply allocs_step; [apply allocs_descend, allocs_no_visit|]. intros [|]; [grows|]. apply allocs_step; [grows|]. intros iv.
  apply allocs_step; [apply Hk|]. intros ck. destruct (f_eq F k ck); grows.
Qed.
Lemma allocs_ptr fuel oh k : (∀ iv, allocs 0 (f_key F iv)) -> allocs 0 (ptr_of F fuel oh k).
Proof. intros Hk. unfold ptr_of. apply allocs_step; [by apply allocs_find|]. intros [iv|]; [|grows]. destruct (lk_ptr iv); grows. Qed.
Lemma allocs_get zero fuel oh k : (∀ iv, allocs 0 (f_key F iv)) -> allocs 0 (get F fuel zero oh k).
Proof. intros Hk. unfold get. apply allocs_step; [by apply allocs_ptr|]. intros [|p]; grows. Qed.
Lemma allocs_val zero fuel oh k : (∀ iv, allocs 0 (f_key F iv)) -> allocs 0 (val F fuel zero oh k).
Proof. intros Hk. unfold val. destruct oh; [|grows]. apply allocs_step; [by apply allocs_ptr|]. intros [|q]; grows. Qed.
Lemma allocs_has fuel oh k : (∀ iv, allocs 0 (f_key F iv)) -> allocs 0 (has F fuel oh k).
Proof. intros Hk. unfold has. apply allocs_step; [by apply allocs_find|]. intros [iv|]; grows. Qed.

(** ** Iteration *)
Lemma allocs_scan act fuel : (∀ iv, allocs 0 (act iv)) -> ∀ l, allocs (V:=V) (CK:=CK) (U:=U) 0 (scan act fuel l).
Proof.
  intros Ha. induction fuel as [|fuel IH]; intros l; cbn [scan]; [grows|]. apply allocs_step; [grows|]. intros lv.
  generalize (ones_count32 (lk_pmap lv)) as n. intros n. generalize 0 at 2 as i. generalize (lk_pmap lv) as pm.
  induction n as [|n IHn]; intros pm i; cbn [scan_items]; [grows|].
  apply allocs_step; [grows|]. intros lv'. apply allocs_step.
  - destruct (negb _); [|apply IH]. apply allocs_step; [grows|]. intros. apply Ha.
  - intros [|]; [apply IHn|grows].
Qed.
Lemma allocs_all_map fuel oh do : (∀ iv, allocs 0 (f_key F iv)) -> (∀ k p, allocs 0 (do k p)) -> allocs 0 (all_map F fuel oh do).
Proof.
  intros Hk Hd. unfold all_map. destruct oh as [r|]; [|grows]. apply allocs_step; [|intros; grows]. apply allocs_scan.
  intros iv. unfold act_map. apply allocs_step; [apply Hk|]. intros k. destruct (lk_ptr iv); [grows|apply Hd].
Qed.
Lemma allocs_all_set fuel oh do : (∀ iv, allocs 0 (f_key F iv)) -> (∀ k, allocs 0 (do k)) -> allocs 0 (all_set F fuel oh do).
Proof.
  intros Hk Hd. unfold all_set. destruct oh as [r|]; [|grows]. apply allocs_step; [|intros; grows]. apply allocs_scan.
  intros iv. unfold act_set. apply allocs_step; [apply Hk|]. intros k. apply Hd.
Qed.

(** ** Deletion *)
Lemma allocs_path_push r p n l : allocs (V:=V) (CK:=CK) (U:=U) 0 (path_push r p n l).
Proof. unfold path_push. destruct p as [m|]; [|grows]. apply allocs_step; [grows|]. intros rt. destruct (m <? 12); grows. Qed.
Lemma allocs_path_get r p i : allocs (V:=V) (CK:=CK) (U:=U) 0 (path_get r p i).
Proof.
  unfold path_get. destruct p as [m|q].
  - apply allocs_step; [grows|]. intros rt. destruct (i <? m); [|grows]. destruct (rt_path rt !! i); grows.
  - destruct (q !! i); grows.
Qed.
Lemma allocs_path_clear r p i : allocs (V:=V) (CK:=CK) (U:=U) 0 (path_clear r p i).
Proof. unfold path_clear. apply allocs_step; [apply allocs_path_get|]. intros x. destruct p; grows. Qed.
Lemma allocs_path_pop r p i : allocs (V:=V) (CK:=CK) (U:=U) 0 (path_pop r p i).
Proof.
  unfold path_pop. apply allocs_step; [apply allocs_path_get|]. intros x. apply allocs_step; [apply allocs_path_clear|]. intros p'.
  destruct (pl_link x); grows.
Qed.
Lemma allocs_unlink r fuel : ∀ p l idx d c, allocs (V:=V) (CK:=CK) (U:=U) 0 (unlink fuel r p l idx d c).
Proof.
  induction fuel as [|fuel IH]; intros p l idx d c; cbn [unlink]; [grows|]. destruct (_ && _); [|grows].
  apply allocs_step; [apply allocs_upd_link|]. intros _. apply allocs_step; [apply allocs_path_pop|]. intros [[p' n] l'].
  apply allocs_step; [grows|]. intros lv. apply allocs_step; [apply allocs_upd_link|]. intros _.
  apply allocs_step; [apply allocs_upd_link|]. intros _. apply allocs_step; [grows|]. intros lv'. apply IH.
Qed.
Lemma allocs_collapse r fuel : ∀ p l d c, allocs (V:=V) (CK:=CK) (U:=U) 0 (collapse fuel r p l d c).
Proof.
  induction fuel as [|fuel IH]; intros p l d c; cbn [collapse]; [grows|]. apply allocs_step; [grows|]. intros lv.
  destruct (_ && _); [|grows]. apply allocs_step; [grows|]. intros x. apply allocs_step; [grows|]. intros _.
  apply allocs_step; [grows|]. intros _. apply allocs_step; [apply allocs_path_pop|]. intros [[p' n] l'].
  apply allocs_step; [apply allocs_upd_link|]. intros _. apply allocs_step; [grows|]. intros lv'. apply IH.
Qed.
Lemma allocs_clear_path r fuel : ∀ p d, allocs (V:=V) (CK:=CK) (U:=U) 0 (clear_path fuel r p d).
Proof.
  induction fuel as [|fuel IH]; intros p d; cbn [clear_path]; [grows|]. destruct (_ =? _)%N; [grows|].
  apply allocs_step; [apply allocs_path_clear|]. intros. apply IH.
Qed.
Lemma allocs_remove fuel r p h d l idx : allocs (V:=V) (CK:=CK) (U:=U) 1 (remove (HS:=HS) fuel r p h d l idx).
Proof.
  unfold remove. apply allocs_step; [apply allocs_upd_link|]. intros _. apply allocs_step; [apply allocs_upd_link|]. intros _.
  apply allocs_step; [grows|]. intros _. apply allocs_step; [grows|]. intros _. apply allocs_step; [apply allocs_path_clear|]. intros p'.
  apply allocs_step; [grows|]. intros lv. apply allocs_step; [apply allocs_unlink|]. intros [[[[p2 l2] idx2] d2] c2].
  apply allocs_step; [grows|]. intros lv2. apply allocs_last.
  - destruct (_ && _); [|grows]. apply allocs_last; [apply allocs_array|]. intros a. apply allocs_step; [apply allocs_upd_link|]. intros _.
    apply allocs_copy_range.
  - intros _. apply allocs_step; [grows|]. intros lv3. apply allocs_step; [apply allocs_copy_range|]. intros _.
    apply allocs_step; [apply allocs_collapse|]. intros y. apply allocs_clear_path.
Qed.
Lemma allocs_delete_gen miss fuel oh k : (∀ iv, allocs 0 (f_key F iv)) -> allocs 1 (delete_gen F miss fuel oh k).
Proof.
  intros Hk. unfold delete_gen. destruct oh as [r|]; [|grows]. apply allocs_step; [grows|]. intros rt.
  apply allocs_step; [apply allocs_descend, allocs_path_push|]. intros [|]; [grows|]. apply allocs_step; [grows|]. intros iv.
  apply allocs_step; [apply Hk|]. intros ck. destruct (miss _); [grows|]. apply allocs_step; [grows|]. intros lv. apply allocs_remove.
Qed.

(** ** Insertion *)
Variable op : insop V CK U.
Variable c : nat.

Lemma allocs_add_body r k h d l idx n (mk : M ptr) : allocs n mk -> allocs (S n) (add_body F r k h d l idx mk).
Proof.
  intros Hn. unfold add_body. apply allocs_step; [grows|]. intros lv. apply allocs_last.
  - destruct (_ || _).
    + apply (allocs_mono n); [lia|]. apply allocs_step; [apply allocs_shift_up|]. intros _. apply allocs_last; [exact Hn|].
      intros p. apply allocs_store_at.
    + apply (allocs_bind _ 1 n); [lia|apply allocs_array|]. intros a. apply allocs_step; [apply allocs_upd_link|]. intros _.
      apply allocs_step; [apply allocs_copy_range|]. intros _. apply allocs_last; [exact Hn|]. intros p.
      apply allocs_step; [apply allocs_store_at|]. intros _. apply allocs_copy_range.
  - intros _. unfold add_tail. apply allocs_step; [apply allocs_upd_link|]. intros _.
    apply allocs_step; [apply allocs_upd_link|]. intros _. apply allocs_count_in.
Qed.
(** The array of the root is never replaced. *)
Lemma allocs_add_body0 r k h l idx n (mk : M ptr) : allocs n mk -> allocs n (add_body F r k h 0 l idx mk).
Proof.
  intros Hn. unfold add_body. apply allocs_step; [grows|]. intros lv. rewrite orb_true_r. apply allocs_last.
  - apply allocs_step; [apply allocs_shift_up|]. intros _. apply allocs_last; [exact Hn|]. intros p. apply allocs_store_at.
  - intros _. unfold add_tail. apply allocs_step; [apply allocs_upd_link|]. intros _.
    apply allocs_step; [apply allocs_upd_link|]. intros _. apply allocs_count_in.
Qed.
Lemma allocs_add_item0 r k h l idx : allocs c (io_new op) -> allocs c (add_item F op r k h 0 l idx).
Proof.
  intros Hn w a w' E. destruct (io_early op) eqn:He.
  - rewrite add_item_early in E by exact He. revert w a w' E. apply (allocs_bind _ c 0); [lia|exact Hn|].
    intros p. apply allocs_add_body0. grows.
  - rewrite add_item_late in E by exact He. revert w a w' E. by apply allocs_add_body0.
Qed.
Lemma allocs_add_item r k h d l idx : allocs c (io_new op) -> allocs (S c) (add_item F op r k h d l idx).
Proof.
  intros Hn w a w' E. destruct (io_early op) eqn:He.
  - rewrite add_item_early in E by exact He. revert w a w' E. apply (allocs_bind _ c 1); [lia|exact Hn|].
    intros p. apply allocs_add_body. grows.
  - rewrite add_item_late in E by exact He. revert w a w' E. by apply allocs_add_body.
Qed.

(** A split allocates an array for each digit that the keys share, and one more. *)
Lemma allocs_split r s k ck cp j : allocs c (io_split op) -> ∀ fuel d h ch item,
  radix_of (adv F s k d h j) ≠ radix_of (adv F s ck d ch j) -> 1 <= j -> d + j <= 255 ->
  allocs (c + j) (split F op fuel r s k ck cp h ch item (N.of_nat d)).
Proof.
  intros Hn. induction j as [|j IH]; intros fuel d h ch item Hne Hj Hd; [lia|].
  destruct fuel as [|fuel]; cbn [split]; [grows|].
  replace (u8 (N.of_nat d + 1)) with (N.of_nat (S d)).
  2:{ unfold u8. rewrite N.mod_small by lia. lia. }
  rewrite <- !adv_S in Hne.
  set (h' := advance F s k (N.of_nat (S d)) h) in *. set (ch' := advance F s ck (N.of_nat (S d)) ch) in *.
  apply allocs_step; [apply allocs_upd_link|]. intros _.
  destruct (bit_of (radix_of h') =? bit_of (radix_of ch'))%N eqn:Eb; cbn [negb].
  - apply (allocs_bind _ 1 (c + j)); [lia|apply allocs_array|]. intros a. apply allocs_step; [apply allocs_upd_link|]. intros _.
    apply IH; [exact Hne| |lia].
    destruct j; [|lia]. exfalso. apply Hne. cbn [adv]. apply N.eqb_eq in Eb. apply bit_of_inj in Eb; [exact Eb|..];
      (eapply N.lt_trans; [apply radix_of_lt|reflexivity]).
  - apply allocs_step; [apply allocs_upd_link|]. intros _. apply (allocs_bind _ 1 (c + j)); [lia|apply allocs_array|]. intros a.
    apply allocs_step; [apply allocs_upd_link|]. intros _. apply (allocs_bind _ c j); [lia|exact Hn|]. intros p.
    apply allocs_step; [grows|]. intros iv. apply allocs_step; [|intros _; apply allocs_count_in].
    destruct (_ <? _)%N; (apply allocs_step; [apply allocs_upd_link|intros _; apply allocs_upd_link]).
Qed.
End ops.

(** Insertion of a key that is not stored. *)
Section insert.
Context {K HS V CK U : Type} `{Countable K} (F : fam K HS V CK U) (L : layout K V CK) (s : N).
Local Notation D := 240.
Hypothesis HF : fam_ok F L.
Hypothesis HL : laws F L.
Variable dig : N -> K -> nat -> N.
Hypothesis Hdig : ∀ s k d, nib F s k d = dig s k d.
Implicit Types (w : world V CK U) (T : tree K) (k : K).

(** If k and k' share e digits and k' has depth d < e, then a new key k adds e - d
    shared strings of digits. *)
Lemma branches_add ks k k' e : k ∉ ks -> k' ∈ ks -> e <= 241 -> (∀ i, i < e -> dig s k i = dig s k' i) ->
  branches dig s ks + (e - depth dig s ks k') <= branches dig s (k :: ks).
Proof.
  intros Hk Hk' He Hag. set (d := depth dig s ks k').
  assert (Hne : k ≠ k') by (intros ->; done).
  assert (Hst : ∀ i, i <= e -> start dig s i k = start dig s i k').
  { intros i Hi. unfold start. apply map_ext_in. intros j Hj%in_seq. apply Hag. lia. }
  assert (Hlen : ∀ i x, length (start dig s i x) = i) by (intros; unfold start; by rewrite map_length, seq_length).
  rewrite <- !strings_length.
  replace (e - d) with (length (map (λ i, start dig s i k) (seq (S d) (e - d)))) by (by rewrite map_length, seq_length).
  rewrite <- app_length. apply submseteq_length, NoDup_submseteq.
  - apply NoDup_app. split; [apply strings_nodup|]. split.
    + intros q Hq Hin. apply elem_of_list_fmap in Hin as (i & -> & Hi). apply elem_of_list_In, in_seq in Hi.
      apply elem_of_strings in Hq as (_ & k1 & Hk1 & Hd1 & Hs1). rewrite Hlen in Hd1, Hs1.
      rewrite Hst in Hs1 by lia. destruct (decide (k1 = k')) as [->|Hn1]; [unfold d in Hi; lia|].
      assert (i <= d); [|lia]. unfold d.
      pose proof (proj1 (depth_le dig s ks k' _) (le_n _) k1 Hk1 Hn1) as Hx. etransitivity; [|exact Hx].
      apply common_ge; [lia|]. intros j Hj. apply (f_equal (λ l, l !! j)) in Hs1. unfold start in Hs1.
      rewrite !list_lookup_fmap, !lookup_seq_lt in Hs1 by lia. simpl in Hs1. by injection Hs1.
    + apply NoDup_fmap_2_strong; [|apply NoDup_seq]. intros i j _ _ E. apply (f_equal length) in E. by rewrite !Hlen in E.
  - intros q [Hq|Hq]%elem_of_app; apply elem_of_strings.
    + apply elem_of_strings in Hq as (Hq & k1 & Hk1 & Hd1 & Hs1). split; [done|]. exists k1. split; [by right|]. split; [|done].
      etransitivity; [exact Hd1|]. apply depth_le. intros k2 Hk2 Hn2.
      pose proof (proj1 (depth_le dig s (k :: ks) k1 _) (le_n _)) as Hx. apply Hx; [by right|done].
    + apply elem_of_list_fmap in Hq as (i & -> & Hi). apply elem_of_list_In, in_seq in Hi. split.
      { intros E. apply (f_equal length) in E. rewrite Hlen in E. simpl in E. lia. }
      exists k. split; [left|]. rewrite Hlen. split; [|done].
      pose proof (proj1 (depth_le dig s (k :: ks) k _) (le_n _)) as Hx.
      etransitivity; [|apply (Hx k'); [by right|done]]. apply common_ge; [lia|]. intros j Hj. apply Hag. lia.
Qed.

Lemma insert_allocs op c w r T k fuel w' : Good F L D s w r T -> ly_ok L k -> 256 <= fuel -> clear F L D s T k ->
  (∀ p, (k, p) ∉ leaves T) -> allocs c (io_new op) -> allocs c (io_split op) ->
  insert F op fuel (Some r) k w = Ret tt w' ->
  ∃ x, size (w_mem w') <= c + (if depth dig s (map fst (leaves T)) k =? 0 then 0 else max 1 x) + size (w_mem w) /\
    x <= depth dig s (map fst (leaves T)) k /\
    branches dig s (map fst (leaves T)) + x <= branches dig s (k :: map fst (leaves T)).
Proof.
  intros HG Hok Hf Hre Habs Hn Hs E. assert (Hpl : placed F s T) by apply HG.
  destruct (load_seed _ _ _ _ _ _ _ HG) as (rt & Hrt & Hseed).
  unfold insert in E. rewrite (bind_Ret _ _ _ _ _ (load_root_step _ _ _ Hrt)) in E. rewrite Hseed in E.
  destruct (descend_plain F L D s (le_n _) w r T k fuel HG Hf) as (cc & a & [(cs & Hst & Hd)|(bef & k' & p & aft & Hst & Hd)]);
    rewrite (bind_Ret _ _ _ _ _ Hd) in E.
  - assert (Ha : allocs (S c) (lv <- load_link (hole r cc) ;; add_item F op r k (hproc F s k (length cc)) (N.of_nat (length cc)) (hole r cc)
       (idx_of (lk_pmap lv) (radix_of (hproc F s k (length cc)))))).
    { apply allocs_step; [grows|]. intros lv. by apply allocs_add_item. }
    exists 0. split.
    { destruct (Nat.eqb_spec (depth dig s (map fst (leaves T)) k) 0) as [Hd0|_]; [|apply Ha in E; simpl; lia].
      destruct cc as [|f cc].
      - clear Ha. change (N.of_nat (length [])) with 0%N in E. assert (size (w_mem w') <= c + size (w_mem w)); [|lia].
        revert E. match goal with |- ?m w = _ -> _ => assert (Ha0 : allocs c m) end; [|apply Ha0].
        apply allocs_step; [grows|]. intros lv. by apply allocs_add_item0.
      - exfalso. destruct Hst as (HT & Hr & Hn').
        assert (Hc : canon_root T) by apply HG. rewrite <- HT in Hc. apply canon_root_plug in Hc as (_ & Hcs & Hok').
        destruct (canon_inhabited (Node a cs)) with (pre := rads (f :: cc)) as [[q [k' p]] He].
        { apply canon_node. split; [|done]. by apply Hok'. }
        assert (Hin : (q, (k', p)) ∈ pleaves [] T).
        { rewrite <- HT, pleaves_plug. apply elem_of_app. by right. }
        destruct (pleaves_pre _ _ _ He) as (q' & Hq' & _). cbn [fst] in Hq'.
        assert (Hw : well F s (q, (k', p))) by (by eapply Forall_forall in Hpl).
        unfold well in Hw. cbn [fst snd] in Hw. rewrite Hq', Hr in Hw at 1.
        assert (Hnib : nib F s k 0 = nib F s k' 0).
        { apply (f_equal (λ l, l !! 0)) in Hw. rewrite lookup_app_l in Hw by (rewrite nibs_length; simpl; lia).
          rewrite nibs_lookup in Hw by (simpl; lia). pose proof (eq_sym Hw) as Hw2. pose proof (lookup_lt_Some _ _ _ Hw2) as Hlt. rewrite nibs_length in Hlt.
          rewrite nibs_lookup in Hw by lia. by injection Hw. }
        assert (1 <= depth dig s (map fst (leaves T)) k); [|lia].
        transitivity (common 241 (dig s k) (dig s k')).
        { apply common_ge; [lia|]. intros i Hi. assert (i = 0) as -> by lia. by rewrite <- !Hdig. }
        pose proof (proj1 (depth_le dig s (map fst (leaves T)) k _) (le_n _)) as Hx. apply Hx.
        { apply elem_of_list_fmap. exists (k', p). split; [done|]. by apply (leaf_of T) in Hin. }
        intros ->. apply (leaf_of T) in Hin. by apply Habs in Hin. }
    split; [lia|].
    rewrite <- !strings_length. rewrite Nat.add_0_r. apply submseteq_length, NoDup_submseteq; [apply strings_nodup|].
    intros q Hq. apply elem_of_strings. apply elem_of_strings in Hq as (Hq & k1 & Hk1 & Hd1 & Hs1).
    split; [done|]. exists k1. split; [by right|]. split; [|done].
    etransitivity; [exact Hd1|]. apply depth_le. intros k2 Hk2 Hn2.
    pose proof (proj1 (depth_le dig s (k :: map fst (leaves T)) k1 _) (le_n _)) as Hx. apply Hx; [by right|done].
  - assert (Hin : (k', p) ∈ leaves T) by (eapply present_leaf; [exact HF|exact (le_n 240)|exact HL|exact Hst]).
    destruct (Good_ok _ _ _ _ _ _ _ _ _ HG Hin) as [Hok' Hcell].
    assert (Hitem : link_at (w_mem w) (SlotRef a (length bef)) = Some (ly_leaf L k' p)) by (eapply item_at; [exact HG|exact Hst]).
    unfold add_present in E. rewrite (bind_Ret _ _ _ _ _ (load_link_step _ _ _ Hitem)) in E.
    rewrite (bind_Ret _ _ _ _ _ (fo_key _ _ HF _ _ _ Hok' Hcell)) in E.
    assert (Hne : k ≠ k') by (intros <-; by apply Habs in Hin).
    destruct (f_eq F k k') eqn:Eq; [by apply (la_eq _ _ HL) in Eq|].
    destruct Hst as (HT & Hr).
    assert (Hpin : (nibs F s k (S (length cc)), (k', p)) ∈ pleaves [] T).
    { rewrite <- HT, pleaves_plug, pleaves_node, cspl_app, cspl_cons. cbn [fst snd pleaves].
      rewrite nibs_S, <- Hr. set_solver +. }
    assert (Hpeq : nibs F s k (S (length cc)) = nibs F s k (length (nibs F s k (S (length cc))))) by (by rewrite nibs_length).
    destruct (Hre Habs _ _ _ Hpin Hpeq (not_eq_sym Hne) Hok') as (Hconf & (d0 & Hd0 & Hd0ne) & Hflat).
    rewrite nibs_length in Hconf. replace (S (length cc) - 1) with (length cc) in Hconf by lia.
    assert (Hagree : ∀ i, i <= length cc -> nib F s k i = nib F s k' i).
    { unfold placed in Hpl. rewrite Forall_forall in Hpl. specialize (Hpl _ Hpin). unfold well in Hpl. cbn [fst snd] in Hpl.
      rewrite nibs_length in Hpl. intros i Hi. apply (f_equal (λ l, l !! i)) in Hpl. rewrite !nibs_lookup in Hpl by lia. congruence. }
    destruct (least (λ d, nib F s k d ≠ nib F s k' d) d0 Hd0ne) as (e & He0 & Hene & Hemin).
    assert (Hce : length cc < e).
    { destruct (Nat.lt_ge_cases (length cc) e) as [|Hge]; [done|]. by apply Hagree in Hge. }
    assert (Hag : ∀ i, i < e -> nib F s k i = nib F s k' i).
    { intros i Hi. destruct (decide (nib F s k i = nib F s k' i)) as [|Hx]; [done|]. by apply Hemin in Hx. }
    assert (Hin' : k' ∈ map fst (leaves T)) by (apply elem_of_list_fmap; exists (k', p); done).
    assert (Hnin : k ∉ map fst (leaves T)).
    { intros ([k0 p0] & -> & Hx)%elem_of_list_fmap. by apply Habs in Hx. }
    assert (Hagd : ∀ i, i < e -> dig s k i = dig s k' i) by (intros i Hi; rewrite <- !Hdig; auto).
    assert (Hdep : e <= depth dig s (map fst (leaves T)) k).
    { transitivity (common 241 (dig s k) (dig s k')); [apply common_ge; [lia|done]|].
      pose proof (proj1 (depth_le dig s (map fst (leaves T)) k _) (le_n _)) as Hx. apply Hx; done. }
    assert (Hdk : depth dig s (map fst (leaves T)) k' = length cc).
    { rewrite (depth_ext dig (λ s k, nib F s k)) by (intros; by rewrite Hdig).
      rewrite <- (depth_spec F L D s w r T _ (le_n _) HG Hpin). unfold pdepth. cbn [fst]. rewrite nibs_length. lia. }
    rewrite Hconf in E.
    2:{ assert (length cc <= D); [|lia]. assert (Hh : hgt T <= S D) by apply HG. rewrite <- HT in Hh.
        pose proof (hgt_plug cc (Node a (bef ++ (nib F s k (length cc), Leaf k' p) :: aft))) as Hp. simpl hgt in Hp. lia. }
    change (radix_of (hproc F s k' (length cc))) with (nib F s k' (length cc)) in E.
    change (radix_of (hproc F s k (length cc))) with (nib F s k (length cc)) in E.
    rewrite <- Hagree, N.eqb_refl, andb_false_r in E by lia.
    match type of E with ?m w = _ => assert (Ha : allocs (c + (e - length cc)) m) end.
    { apply allocs_step; [apply allocs_upd_link|]. intros _. apply allocs_step; [grows|]. intros _.
      apply allocs_split; [done| |lia|lia]. rewrite !adv_hproc. replace (length cc + (e - length cc)) with e by lia. exact Hene. }
    apply Ha in E. exists (e - length cc). split; [|split; [lia|]].
    { destruct (Nat.eqb_spec (depth dig s (map fst (leaves T)) k) 0); lia. }
    rewrite <- Hdk. apply branches_add; [done|done|lia|done].
Qed.
End insert.
