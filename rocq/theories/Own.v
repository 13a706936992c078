(** The pointers that a call stores lead to blocks of its own container. *)
From stdpp Require Import base numbers list gmap relations.
From Verif Require Import GoInt Mem Hash Amt Families Steps Rep Paths Insert KeepSpec.
Local Open Scope nat_scope.

Section own.
Context {V CK U : Type}.
Implicit Types (w : world V CK U).
Local Notation M := (M V CK U).
(** The blocks of one container, those that it will have included. *)
Variable X : loc -> Prop.

Definition okp (p : ptr) : Prop := ∀ b, p = At b -> X b.
Definition okr (l : lref) : Prop := match l with RootRef r => X r | SlotRef a _ => X a | WildRef => True end.
Definition okl (x : link) : Prop := okp (lk_ptr x).
Definition okpl (y : plink) : Prop := ∀ l, pl_link y = Some l -> okr l.
Definition okroot (rt : root) : Prop := okl (rt_link rt) /\ Forall okpl (rt_path rt).
Definition okb (b : block V CK) : Prop :=
  match b with BLinks ls => Forall okl ls | BKv _ _ => True | BRoot rt => okroot rt end.

(** Blocks in X only point into X. *)
Definition cl w : Prop := ∀ a b, X a -> w_mem w !! a = Some b -> okb b.

(** New blocks have new addresses and are no roots. If ph holds and the new blocks are
    in X, the result satisfies P, blocks in X only point into X, and no other block gets
    a pointer. *)
Definition hyg (ph : Prop) {A} (P : A -> Prop) (m : M A) : Prop := ∀ w x w', m w = Ret x w' ->
  (w_nxt w <= w_nxt w')%positive /\
  (∀ l b, w_mem w' !! l = Some b -> is_Some (w_mem w !! l) \/ (w_nxt w <= l < w_nxt w')%positive) /\
  (∀ l rt, w_mem w' !! l = Some (BRoot rt) -> ∃ rt', w_mem w !! l = Some (BRoot rt')) /\
  (ph -> (∀ l, (w_nxt w <= l < w_nxt w')%positive -> X l) -> cl w ->
    cl w' /\ P x /\ ∀ a b, ¬ X a -> points (w_mem w') a b -> points (w_mem w) a b).

Lemma hyg_bind {A B} (ph : Prop) (P : A -> Prop) (Q : B -> Prop) (m : M A) (f : A -> M B) :
  hyg ph P m -> (∀ x, hyg (ph /\ P x) Q (f x)) -> hyg ph Q (bind m f).
Proof.
  intros Hm Hf w y w' E. unfold bind in E. destruct (m w) as [x w1| | |] eqn:E1; try discriminate E.
  destruct (Hm _ _ _ E1) as (N1 & D1 & R1 & H1). destruct (Hf x _ _ _ E) as (N2 & D2 & R2 & H2).
  split_and!.
  - lia.
  - intros l b Hl. apply D2 in Hl as [[b' Hl]|Hl]; [|right; lia]. apply D1 in Hl as [Hl|Hl]; [by left|right; lia].
  - intros l rt Hl. apply R2 in Hl as [rt' Hl]. by apply R1 in Hl.
  - intros Hph HX Hcl. destruct H1 as (C1 & P1 & F1); [done|intros l Hl; apply HX; lia|exact Hcl|].
    destruct H2 as (C2 & P2 & F2); [done|intros l Hl; apply HX; lia|exact C1|].
    split_and!; [exact C2|done|]. intros a b Ha Hp. by apply F1, F2.
Qed.
Lemma hyg_weak {A} (ph ph' : Prop) (P P' : A -> Prop) (m : M A) :
  (ph -> ph') -> (∀ x, ph -> P' x -> P x) -> hyg ph' P' m -> hyg ph P m.
Proof.
  intros H1 H2 Hm w x w' E. destruct (Hm _ _ _ E) as (N1 & D1 & R1 & C1). split_and!; try done.
  intros Hph HX Hcl. destruct C1 as (? & ? & ?); [by apply H1|done|done|]. split_and!; try done. by apply H2.
Qed.
Lemma hyg_same {A} (ph : Prop) (P : A -> Prop) (m : M A) :
  (∀ w x w', m w = Ret x w' -> w_mem w' = w_mem w /\ w_nxt w' = w_nxt w /\ (ph -> cl w -> P x)) -> hyg ph P m.
Proof.
  intros Hm w x w' E. destruct (Hm _ _ _ E) as (E1 & E2 & HP). unfold cl. rewrite E1, E2. split_and!.
  - lia.
  - intros l b Hl. left. by exists b.
  - intros l rt Hl. by exists rt.
  - intros Hph _ Hcl. split_and!; [exact Hcl|by apply HP|done].
Qed.
Lemma hyg_ret {A} (ph : Prop) (P : A -> Prop) (x : A) : (ph -> P x) -> hyg ph P (ret x).
Proof. intros HP. apply hyg_same. intros w y w' E. injection E as <- <-. split_and!; [done..|]. intros Hph _. by apply HP. Qed.
Lemma hyg_panic {A} (ph : Prop) (P : A -> Prop) : hyg ph P (panic (A:=A)).
Proof. intros w x w' E. discriminate E. Qed.
Lemma hyg_hang {A} (ph : Prop) (P : A -> Prop) : hyg ph P (hang (A:=A)).
Proof. intros w x w' E. discriminate E. Qed.

(** Replacing a block that is in X, or has no pointers, by one of the same kind. *)
Lemma hyg_over (ph : Prop) (m : M unit) :
  (∀ w x w', m w = Ret x w' -> ∃ l b b', w_mem w !! l = Some b /\ w_mem w' = <[l := b']> (w_mem w) /\ w_nxt w' = w_nxt w /\
    (∀ rt, b' = BRoot rt -> ∃ rt', b = BRoot rt') /\
    (ph -> (X l \/ ∃ v k, b' = BKv v k) /\ (okb b -> okb b'))) -> hyg ph (λ _, True) m.
Proof.
  intros Hm w x w' E. destruct (Hm _ _ _ E) as (l & b & b' & Hl & E1 & E2 & Hr & Hph).
  unfold cl. rewrite E1, E2. split_and!.
  - lia.
  - intros l' b0 Hl'. left. destruct (decide (l' = l)) as [->|Hn]; [by exists b|]. rewrite lookup_insert_ne in Hl' by done. by exists b0.
  - intros l' rt Hl'. destruct (decide (l' = l)) as [->|Hn].
    + rewrite lookup_insert in Hl'. injection Hl' as ->. destruct (Hr _ eq_refl) as [rt' ->]. by exists rt'.
    + rewrite lookup_insert_ne in Hl' by done. by exists rt.
  - intros Hp _ Hcl. destruct (Hph Hp) as [Hx Hok]. split_and!; [|done|].
    + intros a b0 Ha Hb. destruct (decide (a = l)) as [->|Hn].
      * rewrite lookup_insert in Hb. injection Hb as <-. apply Hok. by apply (Hcl l b).
      * rewrite lookup_insert_ne in Hb by done. by apply (Hcl a b0).
    + intros a c Ha. unfold points. destruct (decide (a = l)) as [->|Hn]; [|by rewrite lookup_insert_ne by done].
      rewrite lookup_insert. destruct Hx as [Hx|(v & k & ->)]; done.
Qed.

Lemma hyg_alloc (ph : Prop) b : (ph -> okb b) -> (∀ rt, b ≠ BRoot rt) -> hyg ph (λ l, X l) (alloc b).
Proof.
  intros Hb Hnr w x w' E. injection E as <- <-. cbn [w_mem w_nxt]. unfold cl. cbn [w_mem]. split_and!.
  - lia.
  - intros l b0 Hl. destruct (decide (l = w_nxt w)) as [->|Hn]; [right; lia|]. rewrite lookup_insert_ne in Hl by done. left. by exists b0.
  - intros l rt Hl. destruct (decide (l = w_nxt w)) as [->|Hn].
    + rewrite lookup_insert in Hl. injection Hl as Hl. by apply Hnr in Hl.
    + rewrite lookup_insert_ne in Hl by done. by exists rt.
  - intros Hph HX Hcl. assert (Hn : X (w_nxt w)) by (apply HX; lia). split_and!; [|done|].
    + intros a b0 Ha. destruct (decide (a = w_nxt w)) as [->|Hne].
      * rewrite lookup_insert. intros E. injection E as <-. by apply Hb.
      * rewrite lookup_insert_ne by done. by apply Hcl.
    + intros a c Ha. unfold points. rewrite lookup_insert_ne; [done|]. intros <-. done.
Qed.
Lemma hyg_load_root (ph : Prop) r : (ph -> X r) -> hyg ph okroot (load_root r).
Proof.
  intros Hr. apply hyg_same. intros w x w' E. unfold load_root in E. destruct (w_mem w !! r) as [[]|] eqn:El; try discriminate E.
  injection E as <- <-. split_and!; [done..|]. intros Hph Hcl. by apply (Hcl r _ (Hr Hph)) in El.
Qed.
Lemma hyg_load_link (ph : Prop) l : (ph -> okr l) -> hyg ph okl (load_link l).
Proof.
  intros Hr. apply hyg_same. intros w x w' E. unfold load_link in E. destruct l as [r|a i|]; [| |discriminate E].
  - destruct (w_mem w !! r) as [[]|] eqn:El; try discriminate E. injection E as <- <-. split_and!; [done..|].
    intros Hph Hcl. by apply (Hcl r _ (Hr Hph)) in El as [].
  - destruct (w_mem w !! a) as [[ls| |]|] eqn:El; try discriminate E. destruct (ls !! i) as [y|] eqn:Ei; try discriminate E.
    injection E as <- <-. split_and!; [done..|]. intros Hph Hcl. apply (Hcl a _ (Hr Hph)) in El. simpl in El.
    rewrite Forall_lookup in El. by eapply El.
Qed.
Lemma hyg_load_kv (ph : Prop) p : hyg ph (λ _, True) (load_kv p).
Proof.
  apply hyg_same. intros w x w' E. unfold load_kv in E. destruct p as [|l]; [discriminate E|].
  destruct (w_mem w !! l) as [[]|]; try discriminate E. by injection E as _ <-.
Qed.
Lemma hyg_get_usr (ph : Prop) : hyg ph (λ _, True) get_usr.
Proof. apply hyg_same. intros w x w' E. by injection E as _ <-. Qed.
Lemma hyg_put_usr (ph : Prop) u : hyg ph (λ _, True) (put_usr u).
Proof. apply hyg_same. intros w x w' E. by injection E as _ <-. Qed.
Lemma hyg_upd_root (ph : Prop) r f : (ph -> X r /\ ∀ rt, okroot rt -> okroot (f rt)) -> hyg ph (λ _, True) (upd_root r f).
Proof.
  intros Hr. apply hyg_over. intros w x w' E. unfold upd_root in E. destruct (w_mem w !! r) as [[| |rt]|] eqn:El; try discriminate E.
  injection E as _ <-. exists r, (BRoot rt), (BRoot (f rt)). split_and!; try done; [by exists rt|]. intros Hph.
  destruct (Hr Hph) as [HX Hf]. split; [by left|]. apply Hf.
Qed.
Lemma hyg_store_link (ph : Prop) l x : (ph -> okr l /\ okl x) -> hyg ph (λ _, True) (store_link l x).
Proof.
  intros Hr. apply hyg_over. intros w y w' E. unfold store_link in E. destruct l as [r|a i|]; [| |discriminate E].
  - destruct (w_mem w !! r) as [[| |rt]|] eqn:El; try discriminate E. injection E as _ <-.
    eexists r, (BRoot rt), (BRoot _). split_and!; try done; [by exists rt|]. intros Hph. destruct (Hr Hph) as [Hx Hl].
    split; [by left|]. intros [_ Hp]. done.
  - destruct (w_mem w !! a) as [[ls| |]|] eqn:El; try discriminate E. destruct (ls !! i) as [z|] eqn:Ei; try discriminate E.
    injection E as _ <-. eexists a, (BLinks ls), (BLinks _). split_and!; try done. intros Hph. destruct (Hr Hph) as [Hx Hl].
    split; [by left|]. simpl. intros Hf. by apply Forall_insert.
Qed.
Lemma hyg_store_val (ph : Prop) p v : hyg ph (λ _, True) (store_val p v).
Proof.
  apply hyg_over. intros w x w' E. unfold store_val in E. destruct p as [|l]; [discriminate E|].
  destruct (w_mem w !! l) as [[|v0 k|]|] eqn:El; try discriminate E. injection E as _ <-.
  exists l, (BKv v0 k), (BKv v k). split_and!; try done. intros _. split; [right; by exists v, k|done].
Qed.
End own.

Section facts.
Variable X : loc -> Prop.
Lemma okr_elem p i : okp X p -> okr X (elem p i).
Proof. intros H. destruct p as [|a]; [done|]. by apply H. Qed.
Lemma okr_elem_lk x i : okl X x -> okr X (elem (lk_ptr x) i).
Proof. apply okr_elem. Qed.
Lemma okl_ptr x : okl X x -> okp X (lk_ptr x).
Proof. done. Qed.
Lemma okp_nil : okp X Nil.
Proof. intros b E. discriminate E. Qed.
Lemma okp_at b : X b -> okp X (At b).
Proof. intros H c E. injection E as <-. exact H. Qed.
Lemma okl_zero : okl X zero_link.
Proof. apply okp_nil. Qed.
Lemma okroot_len n rt : okroot X rt -> okroot X (rt_with_len n rt).
Proof. done. Qed.
Lemma okroot_dep n rt : okroot X rt -> okroot X (rt_with_dep n rt).
Proof. done. Qed.
Lemma okroot_path rt n l i : okroot X rt -> (∀ r, l = Some r -> okr X r) -> okroot X (rt_with_path (<[i := PLink n l]> (rt_path rt)) rt).
Proof. intros [H1 H2] Hl. split; [exact H1|]. cbn [rt_path rt_with_path]. apply Forall_insert; [exact H2|]. exact Hl. Qed.
End facts.

Create HintDb own.
Global Hint Resolve okr_elem okr_elem_lk okl_ptr okp_nil okp_at okl_zero okroot_len okroot_dep : own.
(** The context of a step. *)
Ltac cx := intros; repeat match goal with H : _ /\ _ |- _ => destruct H end; split_and?; eauto with own.
Ltac hb := eapply hyg_bind; [|intros ?].
Ltac hy := repeat first
  [ apply hyg_ret; cx | apply hyg_panic | apply hyg_hang
  | apply hyg_load_root; cx | apply hyg_load_link; cx | apply hyg_load_kv | apply hyg_store_val
  | apply hyg_get_usr | apply hyg_put_usr | apply hyg_upd_root; cx | apply hyg_store_link; cx
  | eapply hyg_bind; [|intros ?]; cbn beta ].

Section ops.
Context {K HS V CK U : Type}.
Implicit Types (w : world V CK U).
Local Notation M := (M V CK U).
Variable X : loc -> Prop.
Local Notation hyg := (hyg (V:=V) (CK:=CK) (U:=U) X).
Local Notation okp := (okp X).
Local Notation okl := (okl X).
Local Notation okr := (okr X).
Implicit Types (ph : Prop).

Lemma hyg_array ph n : hyg ph okp (new_link_array n).
Proof.
  unfold new_link_array. eapply hyg_bind; [apply hyg_alloc; [|done]|intros l; hy].
  intros ?. simpl. apply Forall_replicate, okl_zero.
Qed.
Lemma hyg_upd_link ph l f : (ph -> okr l /\ ∀ x, okl x -> okl (f x)) -> hyg ph (λ _, True) (upd_link l f).
Proof. intros H. unfold upd_link. eapply hyg_bind; [apply hyg_load_link; intros Hp; by apply H|]. intros x. apply hyg_store_link.
  intros [Hp Hx]. split; [by apply H|]. by apply H. Qed.
Lemma hyg_load_at ph p i : (ph -> okp p) -> hyg ph okl (load_at p i).
Proof. intros H. apply hyg_load_link. cx. Qed.
Lemma hyg_store_at ph p i x : (ph -> okp p /\ okl x) -> hyg ph (λ _, True) (store_at p i x).
Proof. intros H. apply hyg_store_link. intros Hp. destruct (H Hp). cx. Qed.
Lemma hyg_shift_up p idx n : ∀ ph, (ph -> okp p) -> hyg ph (λ _, True) (shift_up p idx n).
Proof.
  induction n as [|n IH]; intros ph Hp; cbn [shift_up]; [hy|].
  eapply hyg_bind; [by apply hyg_load_at|]. intros x. eapply hyg_bind; [apply hyg_store_at; cx|]. intros ?. apply IH. cx.
Qed.
Lemma hyg_copy_range src dst so d n : ∀ ph st, (ph -> okp src /\ okp dst) -> hyg ph (λ _, True) (copy_range src dst so d st n).
Proof.
  induction n as [|n IH]; intros ph st Hp; cbn [copy_range]; [hy|].
  eapply hyg_bind; [apply hyg_load_at; intros H; by apply Hp|]. intros x.
  eapply hyg_bind; [apply hyg_store_at; intros [H Hx]; split; [by apply Hp|done]|]. intros ?. apply IH. intros [[H _] _]. by apply Hp.
Qed.
Lemma hyg_count_in ph r n : (ph -> X r) -> hyg ph (λ _, True) (count_in r n).
Proof. intros H. unfold count_in. hy. Qed.

Definition okfound {A} (PA : A -> Prop) (x : found (HS:=HS) A) : Prop :=
  match x with
  | Missing _ _ _ l acc => okr l /\ PA acc
  | Present _ _ _ l item acc => okr l /\ okr item /\ PA acc
  end.

Variable F : fam K HS V CK U.
Hypothesis Hkey : ∀ ph iv, hyg ph (λ _, True) (f_key F iv).
Hypothesis Hleaf : ∀ k p, okp p -> okl (f_leaf F k p).
Hypothesis Hpair : ∀ k p x, okp p -> okl (f_pair F k p x).

Lemma hyg_descend {A} (ph0 : Prop) (PA : A -> Prop) (visit : A -> N -> lref -> M A) s k fuel :
  (∀ ph a n l, (ph -> ph0 /\ okr l /\ PA a) -> hyg ph PA (visit a n l)) ->
  ∀ ph h l d acc, (ph -> ph0 /\ okr l /\ PA acc) -> hyg ph (okfound PA) (descend F visit fuel s k h l d acc).
Proof.
  intros Hv. induction fuel as [|fuel IH]; intros ph h l d acc Hp; cbn [descend]; [hy|].
  eapply hyg_bind; [apply hyg_load_link; intros H; by apply Hp|]. intros lv. destruct (_ =? _)%N.
  { apply hyg_ret. intros [H _]. destruct (Hp H) as (? & ? & ?). done. }
  eapply hyg_bind; [apply Hv; intros [H _]; by apply Hp|]. intros acc'. destruct (_ =? _)%N.
  - apply IH. intros [[H Hlv] Ha]. destruct (Hp H) as (? & ? & ?). cx.
  - apply hyg_ret. intros [[H Hlv] Ha]. destruct (Hp H) as (? & ? & ?). simpl. cx.
Qed.
Lemma hyg_no_visit ph a n l : hyg ph (λ _, True) (no_visit a n l).
Proof. unfold no_visit. hy. Qed.

(** ** Lookups *)
Lemma hyg_find ph fuel r k : (ph -> X r) -> hyg ph (λ x, ∀ iv, x = Some iv -> okl iv) (find F fuel (Some r) k).
Proof.
  intros Hr. unfold find. eapply hyg_bind; [by apply hyg_load_root|]. intros rt.
  eapply hyg_bind; [apply (hyg_descend ph (λ _, True)); [intros; apply hyg_no_visit|cx; by apply Hr]|].
  intros [|]; [hy; discriminate|]. eapply hyg_bind; [apply hyg_load_link; intros [_ H]; simpl in H; tauto|]. intros iv.
  eapply hyg_bind; [apply Hkey|]. intros ck. apply hyg_ret. intros [[_ H] _] iv' E. destruct (f_eq F k ck); [|discriminate E].
  by injection E as <-.
Qed.
Lemma hyg_ptr ph fuel r k : (ph -> X r) -> hyg ph okp (ptr_of F fuel (Some r) k).
Proof.
  intros Hr. unfold ptr_of. eapply hyg_bind; [by apply hyg_find|]. intros [iv|]; [|hy].
  destruct (lk_ptr iv) as [|b] eqn:E; [hy|]. apply hyg_ret. intros [_ H]. specialize (H _ eq_refl). unfold Own.okl in H. by rewrite E in H.
Qed.
Lemma hyg_get zero ph fuel r k : (ph -> X r) -> hyg ph (λ _, True) (get F fuel zero (Some r) k).
Proof. intros Hr. unfold get. eapply hyg_bind; [by apply hyg_ptr|]. intros [|p]; hy. Qed.
Lemma hyg_val zero ph fuel r k : (ph -> X r) -> hyg ph (λ _, True) (val F fuel zero (Some r) k).
Proof. intros Hr. unfold val. eapply hyg_bind; [by apply hyg_ptr|]. intros [|p]; hy. Qed.
Lemma hyg_has ph fuel r k : (ph -> X r) -> hyg ph (λ _, True) (has F fuel (Some r) k).
Proof. intros Hr. unfold has. eapply hyg_bind; [by apply hyg_find|]. intros [|]; hy. Qed.

(** ** Iteration *)
Lemma hyg_scan (ph0 : Prop) act fuel : (∀ ph iv, hyg ph (λ _, True) (act iv)) ->
  ∀ ph l, (ph -> okr l) -> hyg ph (λ _, True) (scan act fuel l).
Proof.
  intros Ha. induction fuel as [|fuel IH]; intros ph l Hl; cbn [scan]; [hy|].
  eapply hyg_bind; [by apply hyg_load_link|]. intros lv.
  assert (Hl' : ph /\ okl lv -> okr l) by (intros [H _]; by apply Hl). revert Hl'. generalize (ph /\ okl lv). clear ph Hl.
  generalize (lk_tmap lv) as tm. generalize (ones_count32 (lk_pmap lv)) as n. generalize 0 as i. generalize (lk_pmap lv) as pm.
  intros pm i n tm ph Hl.
  revert ph pm i Hl.
  induction n as [|n IHn]; intros ph pm i Hl; cbn [scan_items]; [hy|].
  eapply hyg_bind; [by apply hyg_load_link|]. intros lv'. eapply hyg_bind.
  - destruct (negb _); [|apply IH; cx]. eapply hyg_bind; [apply hyg_load_link; cx|]. intros. apply Ha.
  - intros [|]; [|hy]. apply IHn. cx.
Qed.
Lemma hyg_all_map ph fuel r do : (∀ ph k p, hyg ph (λ _, True) (do k p)) -> (ph -> X r) -> hyg ph (λ _, True) (all_map F fuel (Some r) do).
Proof.
  intros Hd Hr. unfold all_map. eapply hyg_bind; [|intros; hy]. apply (hyg_scan True); [|exact Hr].
  intros ph' iv. unfold act_map. eapply hyg_bind; [apply Hkey|]. intros k. destruct (lk_ptr iv); [hy|apply Hd].
Qed.
Lemma hyg_all_set ph fuel r do : (∀ ph k, hyg ph (λ _, True) (do k)) -> (ph -> X r) -> hyg ph (λ _, True) (all_set F fuel (Some r) do).
Proof.
  intros Hd Hr. unfold all_set. eapply hyg_bind; [|intros; hy]. apply (hyg_scan True); [|exact Hr].
  intros ph' iv. unfold act_set. eapply hyg_bind; [apply Hkey|]. intros k. apply Hd.
Qed.

(** ** Deletion *)
Definition okpath (p : pathv) : Prop := match p with PRoot _ => True | POwn q => Forall (okpl X) q end.
Lemma hyg_path_push ph r p n l : (ph -> X r /\ okr l /\ okpath p) -> hyg ph okpath (path_push r p n l).
Proof.
  intros Hp. assert (Hpl : ph -> okpl X (PLink n (Some l))).
  { intros H r0 E. injection E as <-. by apply Hp. }
  unfold path_push. destruct p as [m|q].
  - eapply hyg_bind; [apply hyg_load_root; intros H; by apply Hp|]. intros rt. destruct (m <? 12).
    + eapply (hyg_bind _ _ (λ _, True)); [|intros ?; by apply hyg_ret]. apply hyg_upd_root. intros [H Hrt]. split; [by apply Hp|]. intros rt' Hrt'.
      apply okroot_path; [done|]. intros r0 E. injection E as <-. by apply Hp.
    + apply hyg_ret. intros [H [_ Hrt]]. simpl. apply Forall_app. split; [by apply Forall_take|]. constructor; [by apply Hpl|constructor].
  - apply hyg_ret. intros H. destruct (Hp H) as (_ & _ & Hq). simpl. apply Forall_app. split; [done|]. constructor; [by apply Hpl|constructor].
Qed.
Lemma hyg_path_get ph r p i : (ph -> X r /\ okpath p) -> hyg ph (okpl X) (path_get r p i).
Proof.
  intros Hp. unfold path_get. destruct p as [m|q].
  - eapply hyg_bind; [apply hyg_load_root; intros H; by apply Hp|]. intros rt. destruct (i <? m); [|hy].
    destruct (rt_path rt !! i) as [y|] eqn:E; [|hy]. apply hyg_ret. intros [_ [_ H]]. rewrite Forall_lookup in H. by eapply H.
  - destruct (q !! i) as [y|] eqn:E; [|hy]. apply hyg_ret. intros H. destruct (Hp H) as [_ Hq]. simpl in Hq. rewrite Forall_lookup in Hq. by eapply Hq.
Qed.
Lemma hyg_path_clear ph r p i : (ph -> X r /\ okpath p) -> hyg ph okpath (path_clear r p i).
Proof.
  intros Hp. unfold path_clear. eapply hyg_bind; [by apply hyg_path_get|]. intros x. destruct p as [m|q].
  - eapply (hyg_bind _ _ (λ _, True)); [|intros ?; by apply hyg_ret]. apply hyg_upd_root. intros [H _]. split; [by apply Hp|]. intros rt Hrt.
    apply okroot_path; [done|]. discriminate.
  - apply hyg_ret. intros [H _]. simpl. apply Forall_insert; [by apply Hp|]. intros l E. discriminate E.
Qed.
Lemma hyg_path_pop ph r p i : (ph -> X r /\ okpath p) -> hyg ph (λ x, okpath x.1.1 /\ okr x.2) (path_pop r p i).
Proof.
  intros Hp. unfold path_pop. eapply hyg_bind; [by apply hyg_path_get|]. intros x.
  eapply hyg_bind; [apply hyg_path_clear; intros [H _]; by apply Hp|]. intros p'.
  destruct (pl_link x) as [l|] eqn:E; [|hy]. apply hyg_ret. intros [[_ H1] H2]. simpl. split; [done|]. by apply H1.
Qed.
Lemma hyg_unlink r fuel : ∀ ph p l idx d c, (ph -> X r /\ okpath p /\ okr l) ->
  hyg ph (λ x, okpath x.1.1.1.1 /\ okr x.1.1.1.2) (unlink fuel r p l idx d c).
Proof.
  induction fuel as [|fuel IH]; intros ph p l idx d c Hp; cbn [unlink]; [hy|].
  destruct (_ && _); [|apply hyg_ret; intros H; simpl; destruct (Hp H) as (? & ? & ?); done].
  eapply hyg_bind; [apply hyg_upd_link; intros H; split; [by apply Hp|]; intros x _; apply okp_nil|]. intros ?.
  eapply hyg_bind; [apply hyg_path_pop; intros [H _]; destruct (Hp H) as (? & ? & ?); done|]. intros [[p' n] l']. cbn [fst snd].
  eapply hyg_bind; [apply hyg_load_link; cx|]. intros lv.
  eapply hyg_bind; [apply hyg_upd_link; cx|]. intros ?.
  eapply hyg_bind; [apply hyg_upd_link; cx|]. intros ?.
  eapply hyg_bind; [apply hyg_load_link; cx|]. intros lv'. apply IH. cx. by apply Hp.
Qed.
Lemma hyg_collapse r fuel : ∀ ph p l d c, (ph -> X r /\ okpath p /\ okr l) ->
  hyg ph (λ x, okpath x.1) (collapse fuel r p l d c).
Proof.
  induction fuel as [|fuel IH]; intros ph p l d c Hp; cbn [collapse]; [hy|].
  eapply hyg_bind; [apply hyg_load_link; intros H; by apply Hp|]. intros lv.
  destruct (_ && _); [|apply hyg_ret; intros [H _]; by apply Hp].
  eapply hyg_bind; [apply hyg_load_link; cx|]. intros x.
  eapply hyg_bind; [apply hyg_store_link; cx; by apply Hp|]. intros ?.
  eapply hyg_bind; [apply hyg_upd_root; cx; by apply Hp|]. intros ?.
  eapply hyg_bind; [apply hyg_path_pop; cx; by apply Hp|]. intros [[p' n] l']. cbn [fst snd].
  eapply hyg_bind; [apply hyg_upd_link; cx|]. intros ?.
  eapply hyg_bind; [apply hyg_load_link; cx|]. intros lv'. apply IH. cx; by apply Hp.
Qed.
Lemma hyg_clear_path r fuel : ∀ ph p d, (ph -> X r /\ okpath p) -> hyg ph (λ _, True) (clear_path fuel r p d).
Proof.
  induction fuel as [|fuel IH]; intros ph p d Hp; cbn [clear_path]; [hy|]. destruct (_ =? _)%N; [hy|].
  eapply hyg_bind; [by apply hyg_path_clear|]. intros p'. apply IH. cx. by apply Hp.
Qed.
Lemma hyg_remove ph fuel r p h d l idx : (ph -> X r /\ okpath p /\ okr l) -> hyg ph (λ _, True) (remove (HS:=HS) fuel r p h d l idx).
Proof.
  intros Hp. assert (Hr : ph -> X r) by (intros H; apply Hp in H; tauto). assert (Hl : ph -> okr l) by (intros H; apply Hp in H; tauto).
  assert (Hpp : ph -> okpath p) by (intros H; apply Hp in H; tauto). clear Hp. unfold remove.
  eapply hyg_bind; [apply hyg_upd_link; cx|]. intros ?.
  eapply hyg_bind; [apply hyg_upd_link; cx|]. intros ?.
  eapply hyg_bind; [apply hyg_upd_root; cx|]. intros ?.
  eapply hyg_bind; [apply hyg_upd_root; cx|]. intros ?.
  eapply hyg_bind; [apply hyg_path_clear; cx|]. intros p'.
  eapply hyg_bind; [apply hyg_load_link; cx|]. intros lv.
  eapply hyg_bind; [apply hyg_unlink; cx|]. intros [[[[p2 l2] idx2] d2] c2]. cbn [fst snd].
  eapply hyg_bind; [apply hyg_load_link; cx|]. intros lv2.
  eapply (hyg_bind _ _ (λ _, True)).
  - destruct (_ && _); [|hy]. eapply hyg_bind; [apply hyg_array|]. intros a.
    eapply hyg_bind; [apply hyg_upd_link; cx|]. intros ?. apply hyg_copy_range. cx.
  - intros ?. eapply hyg_bind; [apply hyg_load_link; cx|]. intros lv3.
    eapply hyg_bind; [apply hyg_copy_range; cx|]. intros ?.
    eapply hyg_bind; [apply hyg_collapse; cx|]. intros y. apply hyg_clear_path. cx.
Qed.
Lemma hyg_delete_gen ph miss fuel r k : (ph -> X r) -> hyg ph (λ _, True) (delete_gen F miss fuel (Some r) k).
Proof.
  intros Hr. unfold delete_gen. eapply hyg_bind; [by apply hyg_load_root|]. intros rt.
  eapply hyg_bind; [apply (hyg_descend (X r) okpath); [intros; by apply hyg_path_push|intros [H _]; split_and!; [by apply Hr|by apply Hr|done]]|].
  intros [|]; [hy|]. eapply hyg_bind; [apply hyg_load_link; intros [_ H]; simpl in H; tauto|]. intros iv.
  eapply hyg_bind; [apply Hkey|]. intros ck. destruct (miss _); [hy|].
  eapply hyg_bind; [apply hyg_load_link; intros [[[_ H] _] _]; simpl in H; tauto|]. intros lv. apply hyg_remove.
  intros [[[[[H _] Hf] _] _] _]. simpl in Hf. destruct Hf as (? & ? & ?). split_and!; try done. by apply Hr.
Qed.

(** ** Insertion *)
Variable op : insop V CK U.
Hypothesis Hfound : ∀ ph iv, hyg ph (λ _, True) (io_found op iv).
Hypothesis Hnew : ∀ ph, hyg ph okp (io_new op).
Hypothesis Hsplit : ∀ ph, hyg ph okp (io_split op).

Lemma hyg_add_body ph r k h d l idx (mk : M ptr) : (ph -> X r /\ okr l) -> (∀ ph', (ph' -> ph) -> hyg ph' okp mk) ->
  hyg ph (λ _, True) (add_body F r k h d l idx mk).
Proof.
  intros Hp Hmk. assert (Hr : ph -> X r) by (intros H; apply Hp in H; tauto). assert (Hl : ph -> okr l) by (intros H; apply Hp in H; tauto). clear Hp.
  unfold add_body. eapply hyg_bind; [by apply hyg_load_link|]. intros lv. eapply (hyg_bind _ _ (λ _, True)).
  - destruct (_ || _).
    + eapply hyg_bind; [apply hyg_shift_up; cx|]. intros ?. eapply hyg_bind; [apply Hmk; cx|].
      intros p. apply hyg_store_at. cx.
    + eapply hyg_bind; [apply hyg_array|]. intros a. eapply hyg_bind; [apply hyg_upd_link; cx|]. intros ?.
      eapply hyg_bind; [apply hyg_copy_range; cx|]. intros ?. eapply hyg_bind; [apply Hmk; cx|]. intros p.
      eapply hyg_bind; [apply hyg_store_at; cx|]. intros ?. apply hyg_copy_range; cx.
  - intros ?. unfold add_tail. eapply hyg_bind; [apply hyg_upd_link; cx|]. intros ?.
    eapply hyg_bind; [apply hyg_upd_link; cx|]. intros ?. apply hyg_count_in. cx.
Qed.
Lemma hyg_add_item ph r k h d l idx : (ph -> X r /\ okr l) -> hyg ph (λ _, True) (add_item F op r k h d l idx).
Proof.
  intros Hp w a w' E. destruct (io_early op) eqn:He.
  - rewrite add_item_early in E by exact He. revert w a w' E. change (hyg ph (λ _, True) (bind (io_new op) (λ p, add_body F r k h d l idx (ret p)))).
    eapply hyg_bind; [apply Hnew|]. intros p. apply hyg_add_body; [intros [H _]; by apply Hp|]. intros ph' Hph. apply hyg_ret.
    intros H. by apply Hph.
  - rewrite add_item_late in E by exact He. revert w a w' E. change (hyg ph (λ _, True) (add_body F r k h d l idx (io_new op))).
    apply hyg_add_body; [exact Hp|]. intros. apply Hnew.
Qed.
Lemma hyg_split r s k ck cp fuel : ∀ ph d h ch item, (ph -> X r /\ okr item /\ okp cp) ->
  hyg ph (λ _, True) (split F op fuel r s k ck cp h ch item d).
Proof.
  induction fuel as [|fuel IH]; intros ph d h ch item Hp; cbn [split]; [hy|].
  assert (Hr : ph -> X r) by (intros H; apply Hp in H; tauto). assert (Hl : ph -> okr item) by (intros H; apply Hp in H; tauto).
  assert (Hc : ph -> okp cp) by (intros H; apply Hp in H; tauto). clear Hp.
  eapply hyg_bind; [apply hyg_upd_link; cx|]. intros ?. destruct (negb _).
  - eapply hyg_bind; [apply hyg_upd_link; cx|]. intros ?. eapply hyg_bind; [apply hyg_array|]. intros a.
    eapply hyg_bind; [apply hyg_upd_link; cx|]. intros ?. eapply hyg_bind; [apply Hsplit|]. intros p.
    eapply hyg_bind; [apply hyg_load_link; cx|]. intros iv. eapply (hyg_bind _ _ (λ _, True)); [|intros ?; apply hyg_count_in; cx].
    destruct (_ <? _)%N; (eapply hyg_bind; [apply hyg_upd_link; cx|intros ?; apply hyg_upd_link; cx]).
  - eapply hyg_bind; [apply hyg_array|]. intros a. eapply hyg_bind; [apply hyg_upd_link; cx|]. intros ?. apply IH. cx.
Qed.
Lemma hyg_insert ph fuel r k : (ph -> X r) -> hyg ph (λ _, True) (insert F op fuel (Some r) k).
Proof.
  intros Hr. unfold insert. eapply hyg_bind; [by apply hyg_load_root|]. intros rt.
  eapply hyg_bind; [apply (hyg_descend ph (λ _, True)); [intros; apply hyg_no_visit|cx; by apply Hr]|].
  intros [f hs d l acc|f hs d l item acc].
  - eapply hyg_bind; [apply hyg_load_link; intros [_ H]; simpl in H; tauto|]. intros lv. apply hyg_add_item.
    intros [[[H _] Hf] _]. simpl in Hf. split; [by apply Hr|]. tauto.
  - unfold add_present. eapply hyg_bind; [apply hyg_load_link; intros [_ H]; simpl in H; tauto|]. intros iv.
    eapply hyg_bind; [apply Hkey|]. intros ck. destruct (f_eq F k ck); [apply Hfound|].
    destruct (f_conf F f (rt_seed rt) k ck d) as [ch|]; [|hy].
    assert (Hctx : ((((ph /\ okroot X rt) /\ okfound (λ _, True) (Present f hs d l item acc)) /\ okl iv) /\ True) ->
      X r /\ okr l /\ okr item /\ okl iv).
    { intros [[[[H _] Hf] Hiv] _]. simpl in Hf. split_and!; tauto. }
    destruct (io_check op && _).
    + eapply hyg_bind; [apply Hsplit|]. intros p. apply hyg_upd_link. intros [H Hpp]. apply Hctx in H as (? & ? & ? & ?). cx.
    + eapply hyg_bind; [apply hyg_upd_link; intros H; apply Hctx in H as (? & ? & ? & ?); cx|]. intros ?.
      eapply hyg_bind; [apply hyg_upd_root; intros [H _]; apply Hctx in H as (? & ? & ? & ?); cx|]. intros ?.
      apply hyg_split. intros [[H _] _]. apply Hctx in H as (? & ? & ? & ?). cx.
Qed.
End ops.
