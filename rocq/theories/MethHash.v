(** Which hashes the calls of the generic types of EAmt.v ask for. *)
From stdpp Require Import base numbers list gmap.
From Verif Require Import GoInt Mem Hash Amt Families Spec Client EAmt MethSpec MethCount.
Local Open Scope nat_scope.

Section hashes.
Context {K V U C : Type} (Equal : K -> K -> C -> C * option bool) (Hash : K -> N -> N -> C -> C * option N).
Context (log : C -> list (K * N * N)).
Hypothesis He : ∀ k k' c, log (Equal k k' c).1 = log c.
Hypothesis Hh : ∀ k s i c, log (Hash k s i c).1 = log c ++ [(k, s, i)].
Local Notation S' := (says (V:=V) (CK:=K) (U:=U) log).
Local Notation F := (gen_efam (V:=V) (U:=U) Equal Hash).

(** The hashes of k with seed s number a, a + 1, ..., as many as you like; the parameter iter
    is that number up to 16. *)
Definition series (s : N) (k : K) (a : nat) (l : list (K * N * N)) : Prop :=
  ∃ n, l = (λ j, (k, s, N.of_nat (j mod 16))) <$> seq a n.
(** Any hashes of k and ck with seed s. *)
Definition both (s : N) (k ck : K) (l : list (K * N * N)) : Prop := Forall (λ x, x.1.2 = s /\ (x.1.1 = k \/ x.1.1 = ck)) l.
(** What lookups and insertions ask for. *)
Definition hlooks (s : N) (k : K) (l : list (K * N * N)) : Prop := series s k 0 l.
Definition hinserts (s : N) (k : K) (l : list (K * N * N)) : Prop :=
  ∃ l1 l2 ck, l = l1 ++ l2 /\ series s k 0 l1 /\ both s k ck l2.

Lemma series_nil s k a : series s k a [].
Proof. by exists 0. Qed.
Lemma series_cons s k a l : series s k (S a) l -> series s k a ((k, s, N.of_nat (a mod 16)) :: l).
Proof. intros [n ->]. by exists (S n). Qed.
Lemma both_nil s k ck : both s k ck [].
Proof. constructor. Qed.
Lemma hinserts_series s k l : series s k 0 l -> hinserts s k l.
Proof. intros H. exists l, [], k. split_and!; [by rewrite app_nil_r|done|constructor]. Qed.

Lemma h_hash k s i : S' (λ l, l = [(k, s, i)]) (meth (Hash k s i)).
Proof. by apply s_meth. Qed.
Lemma h_eq b k ck : S' (λ l, l = []) (e_eq (F b) k ck).
Proof. apply s_meth. intros c. by rewrite He, app_nil_r. Qed.
Lemma h_start b s k : S' (λ l, l = [(k, s, 0%N)]) (e_start (F b) s k).
Proof. simpl. apply s_post; [apply h_hash|done]. Qed.
Lemma h_advance b s k d h : S' (λ l, l = [] /\ d `mod` 16 ≠ 0 \/ l = [(k, s, N.shiftr d 4)] /\ d `mod` 16 = 0)%N (eadvance (F b) s k d h).
Proof.
  unfold eadvance. destruct (d `mod` 16 =? 0)%N eqn:E; simpl.
  - apply N.eqb_eq in E. apply s_post; [|done]. eapply s_mono; [|apply h_hash]. intros l ->. by right.
  - apply N.eqb_neq in E. apply s_keeps; [|done]. by left.
Qed.
Lemma series_shift s k a b l : a mod 16 = b mod 16 -> series s k a l -> series s k b l.
Proof.
  intros Hab [n ->]. exists n. revert a b Hab. induction n as [|n IH]; intros a b Hab; [done|].
  change (seq a (S n)) with (a :: seq (S a) n). change (seq b (S n)) with (b :: seq (S b) n). rewrite !fmap_cons, Hab. f_equal.
  apply IH. replace (S a) with (a + 1) by lia. replace (S b) with (b + 1) by lia. rewrite (Nat.add_mod a), (Nat.add_mod b), Hab by lia. done.
Qed.
(** The number of the hash in use at depth d. *)
Lemma round_step d : (d < 256)%N ->
  (u8 (d + 1) `mod` 16 = 0)%N /\ N.shiftr (u8 (d + 1)) 4 = N.of_nat (S (N.to_nat (d / 16)) mod 16) /\
    N.to_nat (u8 (d + 1) / 16) mod 16 = S (N.to_nat (d / 16)) mod 16 \/
  (u8 (d + 1) `mod` 16 ≠ 0)%N /\ N.to_nat (u8 (d + 1) / 16) = N.to_nat (d / 16).
Proof.
  intros Hd. rewrite N.shiftr_div_pow2. change (2 ^ 4)%N with 16%N. unfold u8.
  destruct (decide (d = 255)%N) as [->|Hne]; [left; by vm_compute|].
  rewrite (N.mod_small (d + 1)) by lia.
  pose proof (N.div_mod d 16 ltac:(lia)) as E1. pose proof (N.mod_upper_bound d 16 ltac:(lia)) as B1.
  pose proof (N.div_mod (d + 1) 16 ltac:(lia)) as E2. pose proof (N.mod_upper_bound (d + 1) 16 ltac:(lia)) as B2.
  generalize dependent (d / 16)%N. generalize dependent (d `mod` 16)%N. generalize dependent ((d + 1) / 16)%N.
  generalize dependent ((d + 1) `mod` 16)%N. intros r' B2 q' E2 r B1 q E1.
  destruct (decide (r' = 0)%N) as [E|E].
  - left. assert (q' = q + 1)%N as -> by lia. assert (S (N.to_nat q) < 16) as Hq by lia. rewrite (Nat.mod_small _ _ Hq).
    split; [done|]. split; [lia|]. rewrite Nat.mod_small; lia.
  - right. split; [done|]. assert (q' = q)%N as -> by lia. done.
Qed.
Lemma h_edescend {Y} (visit : Y -> N -> lref -> M V K (U * C) Y) b n s k h l d x : (∀ x r l, keeps (visit x r l)) -> (d < 256)%N ->
  S' (series s k (S (N.to_nat (d / 16)))) (edescend (F b) visit n s k h l d x).
Proof.
  intros Hv. revert h l d x. induction n as [|n IH]; intros h l d x Hd; simpl; [by apply s_keeps; [apply series_nil|]|].
  apply s_pre; [apply series_nil|apply k_load_link|]. intros lv.
  destruct (_ =? _)%N; [by apply s_keeps; [apply series_nil|]|]. apply s_pre; [apply series_nil|apply Hv|]. intros acc.
  destruct (_ =? _)%N; [|by apply s_keeps; [apply series_nil|]].
  assert (Hu : (u8 (d + 1) < 256)%N) by (unfold u8; apply N.mod_upper_bound; lia).
  destruct (round_step d Hd) as [(E & E1 & E2)|(E & E1)].
  - eapply (s_bind log (λ l, l = [(k, s, N.shiftr (u8 (d + 1)) 4)]) (series s k (S (S (N.to_nat (d / 16)))))).
    + intros ? ->. exists 1. simpl fmap. by rewrite E1.
    + intros ? ? -> Hs. rewrite E1. by apply series_cons.
    + eapply s_mono; [|apply h_advance]. naive_solver.
    + intros h'. eapply s_mono; [|by apply IH]. intros l'. apply series_shift.
      replace (S (N.to_nat (u8 (d + 1) / 16))) with (N.to_nat (u8 (d + 1) / 16) + 1) by lia.
      replace (S (S (N.to_nat (d / 16)))) with (S (N.to_nat (d / 16)) + 1) by lia.
      rewrite (Nat.add_mod (N.to_nat _)), (Nat.add_mod (S _)), E2 by lia. done.
  - eapply (s_bind log (λ l, l = [])).
    + intros ? ->. apply series_nil.
    + intros ? ? -> Hs. exact Hs.
    + eapply s_mono; [|apply h_advance]. naive_solver.
    + intros h'. rewrite <-E1. by apply IH.
Qed.

(** ** The operations, after the seed has been read *)
Local Notation nothing := (λ l : list (K * N * N), l = []).
Lemma s_last {A B} P (m : M V K (U * C) A) (k : A -> M V K (U * C) B) : S' P m -> (∀ x, S' nothing (k x)) -> S' P (bind m k).
Proof. intros Hm Hk. eapply (s_bind log P nothing); [done|intros ? ? ? ->; by rewrite app_nil_r|done|done]. Qed.
Lemma s_begin {A B} (Q : list (K * N * N) -> Prop) (m : M V K (U * C) A) (k : A -> M V K (U * C) B) :
  Q [] -> S' nothing m -> (∀ x, S' Q (k x)) -> S' Q (bind m k).
Proof. intros H0 Hm Hk. eapply (s_bind log nothing Q); [by intros ? ->|by intros ? ? -> ?|done|done]. Qed.
Lemma series_one s k : series s k 0 [(k, s, 0%N)].
Proof. by exists 1. Qed.
Lemma series_two s k l : series s k 1 l -> series s k 0 ((k, s, 0%N) :: l).
Proof. apply (series_cons s k 0). Qed.

(** What is asked for from a root with seed s. *)
Definition hsays {A} (P : N -> list (K * N * N) -> Prop) (h : option loc) (m : M V K (U * C) A) : Prop := ∀ w,
  match m w with
  | Ret _ w' | Panic w' => ∃ l, log (w_usr w').2 = log (w_usr w).2 ++ l /\
      ((l = [] /\ h = None) \/ ∃ r rt, h = Some r /\ w_mem w !! r = Some (BRoot rt) /\ P (rt_seed rt) l)
  | _ => True
  end.
Lemma h_root {A} P r (m : root -> M V K (U * C) A) : (∀ rt, S' (P (rt_seed rt)) (m rt)) -> hsays P (Some r) (bind (load_root r) m).
Proof.
  intros Hm w. unfold bind, load_root. destruct (w_mem w !! r) as [[| |rt]|] eqn:E; try done.
  specialize (Hm rt w). destruct (m rt w); try done; destruct Hm as (l & HP & El); exists l; (split; [done|]; right; by exists r, rt).
Qed.
Lemma h_post {A B} P h (m : M V K (U * C) A) (k : A -> M V K (U * C) B) : hsays P h m -> (∀ x, keeps (k x)) -> hsays P h (bind m k).
Proof.
  intros Hm Hk w. specialize (Hm w). unfold bind. destruct (m w) as [x w'|w'| |]; try done.
  specialize (Hk x w'). destruct (k x w'); try done; by rewrite Hk.
Qed.
Lemma h_nil {A} P (m : M V K (U * C) A) : keeps m -> hsays P None m.
Proof.
  intros Hm w. specialize (Hm w). destruct (m w); try done; rewrite Hm; exists []; (split; [by rewrite app_nil_r|by left]).
Qed.

Lemma h_efind b n h k : hsays (λ s, hlooks s k) h (efind (F b) n h k).
Proof.
  unfold efind. destruct h as [r|]; [|by apply h_nil]. apply h_root. intros rt.
  eapply (s_bind log (λ l, l = [(k, rt_seed rt, 0%N)]) (series (rt_seed rt) k 1)).
  - intros ? ->. apply series_one.
  - intros ? ? -> Hs. by apply series_two.
  - apply h_start.
  - intros hs. apply s_last; [by apply (h_edescend no_visit b n (rt_seed rt) k hs (RootRef r) 0)|].
    intros [|]; [by apply s_keeps|]. apply s_pre; [done|apply k_load_link|]. intros iv. apply s_pre; [done|apply k_kv_key|]. intros ck.
    apply s_post; [apply h_eq|done].
Qed.
Lemma h_eptr b n h k : hsays (λ s, hlooks s k) h (eptr_of (F b) n h k).
Proof. unfold eptr_of. apply h_post; [apply h_efind|]. intros [iv|]; [|done]. by destruct (lk_ptr iv). Qed.
Lemma h_eget b n z h k : hsays (λ s, hlooks s k) h (eget (F b) n z h k).
Proof. unfold eget. apply h_post; [apply h_eptr|]. intros [|q]; [done|]. apply k_bind; [apply k_load_kv|done]. Qed.
Lemma h_eval b n z h k : hsays (λ s, hlooks s k) h (eval (F b) n z h k).
Proof.
  unfold eval. destruct h; [|by apply h_nil]. apply h_post; [apply h_eptr|]. intros [|q]; [done|]. apply k_bind; [apply k_load_kv|done].
Qed.
Lemma h_ehas b n h k : hsays (λ s, hlooks s k) h (ehas (F b) n h k).
Proof. unfold ehas. by apply h_post; [apply h_efind|]. Qed.
Lemma h_edelete b n h k : hsays (λ s, hlooks s k) h (edelete (F b) n h k).
Proof.
  unfold edelete. destruct h as [r|]; [|by apply h_nil]. apply h_root. intros rt.
  eapply (s_bind log (λ l, l = [(k, rt_seed rt, 0%N)]) (series (rt_seed rt) k 1)).
  - intros ? ->. apply series_one.
  - intros ? ? -> Hs. by apply series_two.
  - apply h_start.
  - intros hs. apply s_last; [by apply (h_edescend (path_push r) b n (rt_seed rt) k hs (RootRef r) 0); [intros; apply k_path_push|]|].
    intros [|]; [by apply s_keeps|]. apply s_pre; [done|apply k_load_link|]. intros iv. apply s_pre; [done|apply k_kv_key|]. intros ck.
    apply s_post; [apply h_eq|]. intros e. destruct (negb _); [done|]. apply k_bind; [apply k_load_link|]. intros; apply k_remove.
Qed.

Lemma both_app s k ck l l' : both s k ck l -> both s k ck l' -> both s k ck (l ++ l').
Proof. apply Forall_app_2. Qed.
Lemma b_bind {A B} s k ck (m : M V K (U * C) A) (f : A -> M V K (U * C) B) :
  S' (both s k ck) m -> (∀ x, S' (both s k ck) (f x)) -> S' (both s k ck) (bind m f).
Proof. intros Hm Hf. eapply (s_bind log (both s k ck) (both s k ck)); [done|apply both_app|done|done]. Qed.
Lemma b_advance b s k ck k' d h : k' = k \/ k' = ck -> S' (both s k ck) (eadvance (F b) s k' d h).
Proof.
  intros Hk. eapply s_mono; [|apply h_advance]. intros l [[-> _]|[-> _]]; [constructor|]. by constructor; [|constructor].
Qed.
Lemma b_keeps {A} s k ck (m : M V K (U * C) A) : keeps m -> S' (both s k ck) m.
Proof. apply s_keeps, both_nil. Qed.
Lemma h_esplit b op n r s k ck cp h ch item d : quiet_op op -> S' (both s k ck) (esplit (F b) op n r s k ck cp h ch item d).
Proof.
  intros Ho. revert h ch item d. induction n as [|n IH]; intros h ch item d; simpl; [by apply b_keeps|].
  apply b_bind; [apply b_advance; by left|]. intros h'. apply b_bind; [apply b_advance; by right|]. intros ch'.
  apply b_bind; [apply b_keeps, k_upd_link|]. intros _. destruct (negb _).
  - apply b_keeps. apply k_bind; [apply k_upd_link|]. intros _. apply k_bind; [apply k_new_link_array|]. intros a.
    apply k_bind; [apply k_upd_link|]. intros _. apply k_bind; [apply (qo_split _ Ho)|]. intros p.
    apply k_bind; [apply k_load_link|]. intros iv. apply k_bind; [|intros; apply k_count_in].
    destruct (_ <? _)%N; (apply k_bind; [apply k_upd_link|intros; apply k_upd_link]).
  - apply b_bind; [apply b_keeps, k_new_link_array|]. intros a. apply b_bind; [apply b_keeps, k_upd_link|]. intros _. apply IH.
Qed.
Lemma h_einsert b op n h k : quiet_op op -> hsays (λ s, hinserts s k) h (einsert (F b) op n h k).
Proof.
  intros Ho. unfold einsert. destruct h as [r|]; [|by apply h_nil]. apply h_root. intros rt.
  eapply (s_bind log (λ l, l = [(k, rt_seed rt, 0%N)]) (λ l, ∃ l1 l2 ck, l = l1 ++ l2 /\ series (rt_seed rt) k 1 l1 /\ both (rt_seed rt) k ck l2)).
  - intros ? ->. apply hinserts_series, series_one.
  - intros ? ? -> (l1 & l2 & ck & -> & H1 & H2). exists ((k, rt_seed rt, 0%N) :: l1), l2, ck. split_and!; [done|by apply series_two|done].
  - apply h_start.
  - intros hs. eapply (s_bind log (series (rt_seed rt) k 1) (λ l, ∃ ck, both (rt_seed rt) k ck l)).
    + intros l Hl. exists l, [], k. split_and!; [by rewrite app_nil_r|done|constructor].
    + intros l l' Hl [ck Hl']. by exists l, l', ck.
    + by apply (h_edescend no_visit b n (rt_seed rt) k hs (RootRef r) 0).
    + assert (H0 : ∃ ck, both (rt_seed rt) k ck []) by (exists k; constructor). intros [|].
      * apply s_keeps; [done|]. apply k_bind; [apply k_load_link|]. intros lv. by apply k_add_item.
      * unfold eadd_present. apply s_pre; [done|apply k_load_link|]. intros iv. apply s_pre; [done|apply k_kv_key|]. intros ck.
        apply s_begin; [done|apply h_eq|]. intros [|]; [apply s_keeps; [done|apply (qo_found _ Ho)]|].
        eapply (s_mono log (both (rt_seed rt) k ck)); [by eauto|]. apply b_bind.
        { simpl. apply s_post; [|done]. eapply s_mono; [|apply h_hash]. intros l' ->.
          constructor; [|constructor]. simpl. destruct b; auto. }
        intros [ch|]; [|by apply b_keeps]. apply b_bind; [apply b_keeps, k_upd_link|]. intros _.
        apply b_bind; [apply b_keeps, k_upd_root|]. intros _. by apply h_esplit.
Qed.
End hashes.

(** ** Calls *)
Section map_calls.
Context {K V U C : Type} (zero : V) (fuel : nat) (Equal : K -> K -> C -> C * option bool) (Hash : K -> N -> N -> C -> C * option N).
Context (log : C -> list (K * N * N)).
Hypothesis He : ∀ k k' c, log (Equal k k' c).1 = log c.
Hypothesis Hh : ∀ k s i c, log (Hash k s i c).1 = log c ++ [(k, s, i)].

Definition mhashes (op : mop K V U) (w : world V K (U * C)) (l : list (K * N * N)) : Prop :=
  match op with
  | MGet h k | MVal h k | MPtr h k | MDel h k => ∃ rt, w_mem w !! h = Some (BRoot rt) /\ hlooks (rt_seed rt) k l
  | MSet h k _ | MMod h k _ => ∃ rt, w_mem w !! h = Some (BRoot rt) /\ hinserts (rt_seed rt) k l
  | _ => l = []
  end.
Lemma h_call {A B} P h (m : M V K (U * C) A) (f : A -> M V K (U * C) B) w : hsays log P (Some h) m -> (∀ x, keeps (f x)) ->
  match bind m f w with
  | Ret _ w' | Panic w' => ∃ l, log (w_usr w').2 = log (w_usr w).2 ++ l /\ ∃ rt, w_mem w !! h = Some (BRoot rt) /\ P (rt_seed rt) l
  | _ => True
  end.
Proof.
  intros Hm Hf. pose proof (h_post log P (Some h) m f Hm Hf w) as H.
  destruct (bind m f w); try done; destruct H as (l & El & [[_ H]|(r & rt & [= <-] & Hr & HP)]); try done; exists l; eauto.
Qed.
Lemma k_call {A} (m : M V K (U * C) A) w : keeps m ->
  match m w with Ret _ w' | Panic w' => ∃ l, log (w_usr w').2 = log (w_usr w).2 ++ l /\ l = [] | _ => True end.
Proof. intros Hm. specialize (Hm w). destruct (m w); try done; rewrite Hm; exists []; by rewrite app_nil_r. Qed.
Lemma mcall_hashes (op : mop K V U) w :
  match mcall (EMap_api zero fuel Equal Hash) (emap_op op) w with
  | Ret _ w' | Panic w' => ∃ l, log (w_usr w').2 = log (w_usr w).2 ++ l /\ mhashes op w l
  | _ => True
  end.
Proof.
  destruct op as [s|h k v|h k f|h k|h k|h k|h k|h|h|h f|p|p v]; unfold mcall, emap_op, mhashes.
  - apply k_call. apply k_bind; [apply k_New|]. intros [x|]; done.
  - apply (h_call (λ s, hinserts s k)); [|done]. apply h_einsert; [done|done|apply q_set].
  - apply (h_call (λ s, hinserts s k)); [|done]. apply h_einsert; [done|done|]. apply q_mod. intros; apply k_mod_cb.
  - apply (h_call (λ s, hlooks s k)); [|done]. by apply h_edelete.
  - apply (h_call (λ s, hlooks s k)); [|done]. by apply h_eget.
  - apply (h_call (λ s, hlooks s k)); [|done]. by apply h_eval.
  - apply (h_call (λ s, hlooks s k)); [|done]. by apply h_eptr.
  - apply k_call. apply k_bind; [apply k_Len|done].
  - apply k_call. apply k_bind; [apply k_Dep|done].
  - apply k_call. apply k_bind; [apply k_all_map; intros; apply k_all_cb|done].
  - apply k_call. apply k_bind; [apply k_load_kv|done].
  - apply k_call. apply k_bind; [apply k_store_val|done].
Qed.
End map_calls.

Section set_calls.
Context {K U C : Type} (fuel : nat) (Equal : K -> K -> C -> C * option bool) (Hash : K -> N -> N -> C -> C * option N).
Context (log : C -> list (K * N * N)).
Hypothesis He : ∀ k k' c, log (Equal k k' c).1 = log c.
Hypothesis Hh : ∀ k s i c, log (Hash k s i c).1 = log c ++ [(k, s, i)].
Definition shashes (op : sop K U) (w : world unit K (U * C)) (l : list (K * N * N)) : Prop :=
  match op with
  | SHas h k | SDel h k => ∃ rt, w_mem w !! h = Some (BRoot rt) /\ hlooks (rt_seed rt) k l
  | SAdd h k => ∃ rt, w_mem w !! h = Some (BRoot rt) /\ hinserts (rt_seed rt) k l
  | _ => l = []
  end.
Lemma scall_hashes (op : sop K U) w :
  match scall (ESet_api fuel Equal Hash) (eset_op op) w with
  | Ret _ w' | Panic w' => ∃ l, log (w_usr w').2 = log (w_usr w).2 ++ l /\ shashes op w l
  | _ => True
  end.
Proof.
  destruct op as [s|h k|h k|h k|h|h|h f]; unfold scall, eset_op, shashes.
  - apply k_call. apply k_bind; [apply k_New|]. intros [x|]; done.
  - apply (h_call log (λ s, hinserts s k)); [|done]. apply h_einsert; [done|done|apply q_add].
  - apply (h_call log (λ s, hlooks s k)); [|done]. by apply h_edelete.
  - apply (h_call log (λ s, hlooks s k)); [|done]. by apply h_ehas.
  - apply k_call. apply k_bind; [apply k_Len|done].
  - apply k_call. apply k_bind; [apply k_Dep|done].
  - apply k_call. apply k_bind; [apply k_all_set; intros; apply k_set_cb|done].
Qed.
End set_calls.
