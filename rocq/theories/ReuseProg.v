(** The programs of PAmt.v do the same with any choice of addresses. *)
From stdpp Require Import base numbers list gmap relations.
From Verif Require Import GoInt Mem Prog Spec Client PClient KeepSpec GcSpec ReuseSpec Reuse.
From Verif Require Import Amt PAmt.
Import Prog.
Local Open Scope N_scope.

Implicit Types (β : names).

Definition eq_as {A} (β : names) : A -> A -> Prop := eq.

Section prims.
Context {V CK U : Type}.
Local Notation pas as_ β p q := (prog_as (V:=V) (CK:=CK) (U:=U) as_ β p q).

Lemma as_bind {A B} asA asB β (p q : Prog.prog V CK U A) (f g : A -> Prog.prog V CK U B) : pas asA β p q ->
  (∀ β' a a', more β β' -> asA β' a a' -> pas asB β' (f a) (g a')) -> pas asB β (Prog.bind p f) (Prog.bind q g).
Proof.
  induction 1 as [β a a' Ha|β|β|β|β l l' k k' Hl Hk IH|β l l' b b' k k' Hl Hb Hk IH|β b b' k k' Hb Hk IH|β k k' Hk IH|β u k k' Hk IH];
    intros Hf; simpl; try (constructor; auto; fail).
  - by apply Hf; [apply more_refl|].
  - constructor; [done|]. intros β' b b' Hm Hbd Hb. apply IH; [done..|]. intros β2 a a' Hm2. apply Hf. by eapply more_trans.
  - constructor; [done|]. intros β' l l' Hm Hbd Hl. apply IH; [done..|]. intros β2 a a' Hm2. apply Hf. by eapply more_trans.
Qed.
Lemma as_Ret {A} (as_ : names -> A -> A -> Prop) β a a' : as_ β a a' -> pas as_ β (Prog.ret a) (Prog.ret a').
Proof. by constructor. Qed.
Lemma as_eqret {A} β (a : A) : pas eq_as β (Prog.ret a) (Prog.ret a).
Proof. by constructor. Qed.
Lemma as_Panic {A} (as_ : names -> A -> A -> Prop) β : pas as_ β Prog.panic Prog.panic.
Proof. by constructor. Qed.
Lemma as_Hang {A} (as_ : names -> A -> A -> Prop) β : pas as_ β Prog.hang Prog.hang.
Proof. by constructor. Qed.
Definition loc_as (β : names) : loc -> loc -> Prop := β.
Lemma as_Alloc β b b' : block_as β b b' -> pas loc_as β (Prog.alloc b) (Prog.alloc b').
Proof. intros Hb. constructor; [done|]. intros β' l l' _ _ Hl. by constructor. Qed.
Lemma as_load_root (β : names) r r' : β r r' -> pas root_as β (Prog.load_root r) (Prog.load_root r').
Proof.
  intros Hr. constructor; [done|]. intros β' b b' Hm _ Hb. destruct b, b'; simpl in Hb; try done; constructor. done.
Qed.
Lemma as_upd_root (β : names) r r' f g : β r r' -> (∀ β' x y, more β β' -> root_as β' x y -> root_as β' (f x) (g y)) ->
  pas eq_as β (Prog.upd_root r f) (Prog.upd_root r' g).
Proof.
  intros Hr Hf. constructor; [done|]. intros β' b b' Hm _ Hb. destruct b, b'; simpl in Hb; try done; constructor.
  - by apply Hm.
  - by apply Hf.
  - by constructor.
Qed.
Lemma as_load_link (β : names) l l' : lref_as β l l' -> pas link_as β (Prog.load_link l) (Prog.load_link l').
Proof.
  intros Hl. destruct l as [r|a i|], l' as [r'|a' i'|]; simpl in Hl; try done.
  - constructor; [done|]. intros β' b b' Hm _ Hb. destruct b, b'; simpl in Hb; try done; constructor. apply Hb.
  - destruct Hl as [Ha ->]. constructor; [done|]. intros β' b b' Hm _ Hb. destruct b as [ls| |], b' as [ls'| |]; simpl in Hb; try done; try constructor.
    destruct (ls !! i') as [x|] eqn:E.
    + destruct (Forall2_lookup_l _ _ _ _ _ Hb E) as (y & -> & Hxy). by constructor.
    + rewrite (proj2 (lookup_ge_None _ _)); [constructor|]. apply lookup_ge_None in E. by rewrite <- (Forall2_length _ _ _ Hb).
  - constructor.
Qed.
Lemma as_store_link (β : names) l l' x y : lref_as β l l' -> link_as β x y -> pas eq_as β (Prog.store_link l x) (Prog.store_link l' y).
Proof.
  intros Hl Hx. destruct l as [r|a i|], l' as [r'|a' i'|]; simpl in Hl; try done.
  - constructor; [done|]. intros β' b b' Hm _ Hb. destruct b as [| |rt], b' as [| |rt']; simpl in Hb; try done; constructor.
    + by apply Hm.
    + destruct Hb as (H1 & H2 & H3 & H4 & H5). unfold root_as; simpl. split_and!; try done. by eapply link_as_more.
    + by constructor.
  - destruct Hl as [Ha ->]. constructor; [done|]. intros β' b b' Hm _ Hb. destruct b as [ls| |], b' as [ls'| |]; simpl in Hb; try done; try constructor.
    destruct (ls !! i') as [z|] eqn:E.
    + destruct (Forall2_lookup_l _ _ _ _ _ Hb E) as (z' & -> & Hz). constructor.
      * by apply Hm.
      * simpl. apply Forall2_insert; [done|]. by eapply link_as_more.
      * by constructor.
    + rewrite (proj2 (lookup_ge_None _ _)); [constructor|]. apply lookup_ge_None in E. by rewrite <- (Forall2_length _ _ _ Hb).
  - constructor.
Qed.
Lemma as_load_kv β p q : ptr_as β p q -> pas eq_as β (Prog.load_kv p) (Prog.load_kv q).
Proof.
  intros Hp. destruct p as [|a], q as [|a']; simpl in Hp; try done; [constructor|].
  constructor; [done|]. intros β' b b' Hm _ Hb. destruct b, b'; simpl in Hb; try done; constructor. destruct Hb as [-> ->]. done.
Qed.
Lemma as_store_val β p q v : ptr_as β p q -> pas eq_as β (Prog.store_val p v) (Prog.store_val q v).
Proof.
  intros Hp. destruct p as [|a], q as [|a']; simpl in Hp; try done; [constructor|].
  constructor; [done|]. intros β' b b' Hm _ Hb. destruct b, b'; simpl in Hb; try done; constructor.
  - by apply Hm.
  - simpl. by destruct Hb as [_ ->].
  - by constructor.
Qed.
Lemma as_get_usr β : pas eq_as β Prog.get_usr Prog.get_usr.
Proof. constructor. intros u. by constructor. Qed.
Lemma as_put_usr β u : pas eq_as β (Prog.put_usr u) (Prog.put_usr u).
Proof. constructor. by constructor. Qed.
End prims.

Local Arguments Prog.bind : simpl never.
Local Arguments Prog.ret : simpl never.
Local Arguments Prog.load_root : simpl never.
Local Arguments Prog.upd_root : simpl never.
Local Arguments Prog.load_link : simpl never.
Local Arguments Prog.store_link : simpl never.
Local Arguments Prog.load_kv : simpl never.
Local Arguments Prog.store_val : simpl never.
Local Arguments Prog.alloc : simpl never.

(** A pointer that may not be there yet, and Del's path. *)
Definition optr_as (β : names) (x y : option ptr) : Prop :=
  match x, y with Some x, Some y => ptr_as β x y | None, None => True | _, _ => False end.
Lemma optr_more β β' x y : more β β' -> optr_as β x y -> optr_as β' x y.
Proof. intros Hm. destruct x, y; simpl; try done. by apply ptr_as_more. Qed.
Definition path_as (β : names) (p q : pathv) : Prop :=
  match p, q with PRoot n, PRoot n' => n = n' | POwn l, POwn l' => Forall2 (plink_as β) l l' | _, _ => False end.
Lemma path_more β β' p q : more β β' -> path_as β p q -> path_as β' p q.
Proof. intros Hm. destruct p, q; simpl; try done. intros Hf. eapply Forall2_impl; [exact Hf|]. by apply plink_as_more. Qed.

(** Takes what is known to more names. *)
Ltac lift Hm := match type of Hm with more ?β ?β' => repeat match goal with
  | H : ptr_as β _ _ |- _ => apply (ptr_as_more β β' Hm) in H
  | H : link_as β _ _ |- _ => apply (link_as_more β β' Hm) in H
  | H : lref_as β _ _ |- _ => apply (lref_as_more β β' Hm) in H
  | H : plink_as β _ _ |- _ => apply (plink_as_more β β' Hm) in H
  | H : root_as β _ _ |- _ => apply (root_as_more β β' Hm) in H
  | H : optr_as β _ _ |- _ => apply (optr_more β β' _ _ Hm) in H
  | H : path_as β _ _ |- _ => apply (path_more β β' _ _ Hm) in H
  | H : β _ _ |- _ => apply Hm in H
  end; clear Hm end.
Ltac fin := match goal with
  | H : eq_as _ ?x ?y |- _ => unfold eq_as in H; subst
  | H : loc_as _ _ _ |- _ => unfold loc_as in H
  | H : link_as _ (Link _ _ _) (Link _ _ _) |- _ => destruct H as (?Hp & ?E1 & ?E2); cbn [lk_ptr lk_pmap lk_tmap] in *; subst
  | H : link_as _ ?x ?y |- _ => destruct x as [?p ?pm ?tm], y as [?p' ?pm' ?tm']
  end.
Ltac fx := repeat fin; cbn [lk_ptr lk_pmap lk_tmap].
Ltac bd := fx; eapply as_bind; [|let β' := fresh "β" in let x := fresh "x" in let y := fresh "y" in let Hm := fresh "Hm" in let Hx := fresh "Hx" in
  intros β' x y Hm Hx; lift Hm].
Create HintDb asdb.
Global Hint Resolve as_Ret as_eqret as_Panic as_Hang as_Alloc as_load_root as_load_link as_store_link as_load_kv as_store_val as_get_usr as_put_usr : asdb.

Section facts.
Context (β : names).
Lemma elem_as p q i : ptr_as β p q -> lref_as β (elem p i) (elem q i).
Proof. destruct p, q; simpl; try done. Qed.
Lemma link_as_intro p q a b : ptr_as β p q -> link_as β (Link p a b) (Link q a b).
Proof. by repeat split. Qed.
Lemma with_ptr_as p q x y : ptr_as β p q -> link_as β x y -> link_as β (lk_with_ptr p x) (lk_with_ptr q y).
Proof. intros ? (? & ? & ?). by repeat split. Qed.
Lemma with_pmap_as n x y : link_as β x y -> link_as β (lk_with_pmap n x) (lk_with_pmap n y).
Proof. intros (? & ? & ?). by repeat split. Qed.
Lemma with_tmap_as n x y : link_as β x y -> link_as β (lk_with_tmap n x) (lk_with_tmap n y).
Proof. intros (? & ? & ?). by repeat split. Qed.
Lemma with_len_as n x y : root_as β x y -> root_as β (rt_with_len n x) (rt_with_len n y).
Proof. intros (? & ? & ? & ? & ?). unfold root_as. by split_and!. Qed.
Lemma with_dep_as n x y : root_as β x y -> root_as β (rt_with_dep n x) (rt_with_dep n y).
Proof. intros (? & ? & ? & ? & ?). unfold root_as. by split_and!. Qed.
Lemma zeros_as n : Forall2 (link_as β) (replicate n zero_link) (replicate n zero_link).
Proof. apply Forall2_replicate. by repeat split. Qed.
End facts.
Global Hint Resolve elem_as link_as_intro with_ptr_as with_pmap_as with_tmap_as with_len_as with_dep_as zeros_as : asdb.

Section amt.
Context {K HS V CK U : Type}.
Local Notation M := (Prog.prog V CK U).
Local Notation pas as_ β p q := (prog_as (V:=V) (CK:=CK) (U:=U) as_ β p q).

Lemma as_new_root β s : pas loc_as β (PAmt.new_root s) (PAmt.new_root s).
Proof.
  unfold PAmt.new_root. bd; [apply as_Alloc; apply (zeros_as _ 16)|]. apply as_Alloc. simpl. unfold root_as; simpl. split_and!; [by repeat split|done..|].
  apply (Forall2_replicate _ 12). by split.
Qed.
Lemma as_new_link_array β n : pas ptr_as β (PAmt.new_link_array n) (PAmt.new_link_array n).
Proof. unfold PAmt.new_link_array. bd; [apply as_Alloc; apply zeros_as|]. by constructor. Qed.
Lemma as_root_len (β : names) r r' : β r r' -> pas eq_as β (PAmt.root_len (Some r)) (PAmt.root_len (Some r')).
Proof. intros Hr. simpl. bd; [eauto with asdb|]. destruct Hx as (_ & _ & -> & _). apply as_eqret. Qed.
Lemma as_root_dep (β : names) r r' : β r r' -> pas eq_as β (PAmt.root_dep (Some r)) (PAmt.root_dep (Some r')).
Proof.
  intros Hr. unfold PAmt.root_dep. bd; [eauto with asdb|]. destruct Hx as (_ & _ & Hx1 & Hx2 & _). rewrite Hx1, Hx2. destruct (_ =? _); apply as_eqret.
Qed.
Lemma as_load_at β p q i : ptr_as β p q -> pas link_as β (PAmt.load_at p i) (PAmt.load_at q i).
Proof. intros. unfold PAmt.load_at. eauto with asdb. Qed.
Lemma as_store_at β p q i x y : ptr_as β p q -> link_as β x y -> pas eq_as β (PAmt.store_at p i x) (PAmt.store_at q i y).
Proof. intros. unfold PAmt.store_at. eauto with asdb. Qed.
Lemma as_upd_link (β : names) l l' f g : lref_as β l l' -> (∀ β' x y, more β β' -> link_as β' x y -> link_as β' (f x) (g y)) ->
  pas eq_as β (PAmt.upd_link l f) (PAmt.upd_link l' g).
Proof.
  intros Hl Hf. unfold PAmt.upd_link. eapply as_bind; [by apply as_load_link|]. intros β' x y Hm Hx.
  apply as_store_link; [by eapply lref_as_more|]. by apply Hf.
Qed.
Lemma as_shift_up β p q i n : ptr_as β p q -> pas eq_as β (PAmt.shift_up p i n) (PAmt.shift_up q i n).
Proof.
  revert β. induction n as [|n IH]; intros β Hp; simpl; [apply as_eqret|].
  bd; [by apply as_load_at|]. bd; [apply as_store_at; eauto with asdb|]. by apply IH.
Qed.
Lemma as_copy_range β p q p' q' so d n : ptr_as β p q -> ptr_as β p' q' ->
  ∀ st, pas eq_as β (PAmt.copy_range p p' so d st n) (PAmt.copy_range q q' so d st n).
Proof.
  revert β. induction n as [|n IH]; intros β Hp Hp' st; simpl; [apply as_eqret|].
  bd; [by apply as_load_at|]. bd; [apply as_store_at; eauto with asdb|]. by apply IH.
Qed.
Lemma as_count_in (β : names) r r' n : β r r' -> pas eq_as β (PAmt.count_in r n) (PAmt.count_in r' n).
Proof.
  intros Hr. unfold PAmt.count_in. bd.
  - apply as_upd_root; [done|]. intros β' x y _ Hx. pose proof Hx as (_ & _ & -> & _). by apply with_len_as.
  - apply as_upd_root; [done|]. intros β' z z' _ Hz. pose proof Hz as (_ & _ & _ & -> & _). by apply with_dep_as.
Qed.

(** A family. *)
Record fam_as (F : PAmt.fam K HS V CK U) : Prop := FamAs {
  fa_key : ∀ β x y, link_as β x y -> pas eq_as β (PAmt.f_key F x) (PAmt.f_key F y);
  fa_leaf : ∀ β k p q, ptr_as β p q -> link_as β (PAmt.f_leaf F k p) (PAmt.f_leaf F k q);
  fa_pair : ∀ β k p q x y, ptr_as β p q -> link_as β x y -> link_as β (PAmt.f_pair F k p x) (PAmt.f_pair F k q y);
  fa_new : ∀ β v k, pas ptr_as β (PAmt.f_new F v k) (PAmt.f_new F v k) }.
Record op_as (o : PAmt.insop V CK U) : Prop := OpAs {
  oa_found : ∀ β x y, link_as β x y -> pas eq_as β (PAmt.io_found o x) (PAmt.io_found o y);
  oa_new : ∀ β, pas ptr_as β (PAmt.io_new o) (PAmt.io_new o);
  oa_split : ∀ β, pas ptr_as β (PAmt.io_split o) (PAmt.io_split o) }.
Context (F : PAmt.fam K HS V CK U) (HF : fam_as F).

(** The end of the traversal. *)
Definition found_as {A} (as_ : names -> A -> A -> Prop) (β : names) (x y : found (HS:=HS) A) : Prop :=
  match x, y with
  | Missing f h d l a, Missing f' h' d' l' a' => f = f' /\ h = h' /\ d = d' /\ lref_as β l l' /\ as_ β a a'
  | Present f h d l i a, Present f' h' d' l' i' a' => f = f' /\ h = h' /\ d = d' /\ lref_as β l l' /\ lref_as β i i' /\ as_ β a a'
  | _, _ => False
  end.
Lemma as_descend {A} (as_ : names -> A -> A -> Prop) β0 (v v' : A -> N -> lref -> M A) s k fuel : grows as_ ->
  (∀ β a a' r l l', more β0 β -> as_ β a a' -> lref_as β l l' -> pas as_ β (v a r l) (v' a' r l')) ->
  ∀ β h l l' d a a', more β0 β -> lref_as β l l' -> as_ β a a' ->
  pas (found_as as_) β (PAmt.descend F v fuel s k h l d a) (PAmt.descend F v' fuel s k h l' d a').
Proof using.
  intros Hg Hv. induction fuel as [|fuel IH]; intros β h l l' d a a' H0 Hl Ha; simpl; [apply as_Hang|].
  eapply as_bind; [by apply as_load_link|]. intros β' x y Hm Hx. apply (lref_as_more _ _ Hm) in Hl. apply (Hg _ _ _ _ Hm) in Ha.
  apply (more_trans _ _ _ H0) in Hm. repeat fin. cbn [lk_ptr lk_pmap lk_tmap].
  destruct (_ =? _); [by apply as_Ret|].
  eapply as_bind; [by apply Hv|]. intros β2 b b' Hm2 Hb. apply (more_trans _ _ _ Hm) in Hm2 as Hm3. lift Hm2.
  destruct (_ =? _).
  - apply IH; eauto with asdb.
  - apply as_Ret. simpl. split_and!; eauto with asdb.
Qed.
Lemma eq_grows {A} : grows (@eq_as A).
Proof. by intros β β' a a' _. Qed.
Lemma as_descend_none β r r' s k fuel h d : β r r' ->
  pas (found_as eq_as) β (PAmt.descend F PAmt.no_visit fuel s k h (RootRef r) d tt) (PAmt.descend F PAmt.no_visit fuel s k h (RootRef r') d tt).
Proof using.
  intros Hr. apply (as_descend eq_as β); [apply eq_grows| |apply more_refl|done|done].
  intros β' a a' r0 l l' _ -> _. apply as_eqret.
Qed.

Definition olink_as (β : names) (x y : option link) : Prop :=
  match x, y with Some x, Some y => link_as β x y | None, None => True | _, _ => False end.
Lemma as_find β fuel r r' k : β r r' -> pas olink_as β (PAmt.find F fuel (Some r) k) (PAmt.find F fuel (Some r') k).
Proof using HF.
  intros Hr. unfold PAmt.find. bd; [by apply as_load_root|]. destruct Hx as (_ & Hs & _). rewrite Hs.
  bd; [by apply as_descend_none|]. destruct x0 as [? ? ? ? ?|? ? ? ? ? ?], y0 as [? ? ? ? ?|? ? ? ? ? ?]; simpl in Hx; try done; [by apply as_Ret|].
  destruct Hx as (-> & -> & -> & Hl & Hi & _). bd; [by apply as_load_link|]. bd; [by apply (fa_key _ HF), link_as_intro|].
  fx. apply as_Ret. destruct (PAmt.f_eq _ _ _); simpl; [by apply link_as_intro|done].
Qed.
Lemma as_ptr_of β fuel r r' k : β r r' -> pas ptr_as β (PAmt.ptr_of F fuel (Some r) k) (PAmt.ptr_of F fuel (Some r') k).
Proof using HF.
  intros Hr. unfold PAmt.ptr_of. bd; [by apply as_find|]. destruct x as [x|], y as [y|]; simpl in Hx; try done; [|by apply as_Ret].
  destruct x as [[|a] ? ?], y as [[|a'] ? ?]; destruct Hx as (Hp & _ & _); simpl in *; try done; [apply as_Panic|by apply as_Ret].
Qed.
Lemma as_get β fuel zero r r' k : β r r' -> pas eq_as β (PAmt.get F fuel zero (Some r) k) (PAmt.get F fuel zero (Some r') k).
Proof using HF.
  intros Hr. unfold PAmt.get. bd; [by apply as_ptr_of|]. destruct x as [|a], y as [|a']; simpl in Hx; try done; [apply as_eqret|].
  bd; [by apply as_load_kv|]. fx. apply as_eqret.
Qed.
Lemma as_val β fuel zero r r' k : β r r' -> pas eq_as β (PAmt.val F fuel zero (Some r) k) (PAmt.val F fuel zero (Some r') k).
Proof using HF.
  intros Hr. unfold PAmt.val. bd; [by apply as_ptr_of|]. destruct x as [|a], y as [|a']; simpl in Hx; try done; [apply as_eqret|].
  bd; [by apply as_load_kv|]. fx. apply as_eqret.
Qed.
Lemma as_has β fuel r r' k : β r r' -> pas eq_as β (PAmt.has F fuel (Some r) k) (PAmt.has F fuel (Some r') k).
Proof using HF.
  intros Hr. unfold PAmt.has. bd; [by apply as_find|]. destruct x as [x|], y as [y|]; simpl in Hx; try done; apply as_eqret.
Qed.

Context (o : PAmt.insop V CK U) (Ho : op_as o).
Lemma as_split β fuel r r' s k ck cp cp' : β r r' -> ptr_as β cp cp' -> ∀ h ch item item' d, lref_as β item item' ->
  pas eq_as β (PAmt.split F o fuel r s k ck cp h ch item d) (PAmt.split F o fuel r' s k ck cp' h ch item' d).
Proof using HF Ho.
  revert β. induction fuel as [|fuel IH]; intros β Hr Hc h ch item item' d Hi; cbn [PAmt.split]; [apply as_Hang|].
  bd. { apply as_upd_link; [done|]. intros β' x y _ Hx. by apply with_pmap_as. }
  fx. destruct (negb _).
  - bd. { apply as_upd_link; [done|]. intros β' z z' _ Hz. pose proof Hz as (_ & -> & _). by apply with_tmap_as. }
    bd; [apply as_new_link_array|]. bd. { apply as_upd_link; [done|]. intros β' z z' Hm Hz. apply with_ptr_as; [by eapply ptr_as_more|done]. }
    bd; [apply (oa_split _ Ho)|]. bd; [by apply as_load_link|].
    fx. eapply as_bind; [instantiate (1 := eq_as)|intros β' z z' Hm Hz; lift Hm; by apply as_count_in].
    destruct (_ <? _).
    + bd. { apply as_upd_link; [by apply elem_as|]. intros β' z z' Hm Hz. lift Hm. by apply (fa_pair _ HF). }
      apply as_upd_link; [by apply elem_as|]. intros β' z z' Hm Hz. lift Hm. by apply (fa_pair _ HF).
    + bd. { apply as_upd_link; [by apply elem_as|]. intros β' z z' Hm Hz. lift Hm. by apply (fa_pair _ HF). }
      apply as_upd_link; [by apply elem_as|]. intros β' z z' Hm Hz. lift Hm. by apply (fa_pair _ HF).
  - bd; [apply as_new_link_array|]. bd. { apply as_upd_link; [done|]. intros β' z z' Hm Hz. apply with_ptr_as; [by eapply ptr_as_more|done]. }
    apply IH; [done|done|]. by apply elem_as.
Qed.
Lemma as_mk β e e' : optr_as β e e' ->
  pas ptr_as β (match e with Some p => Prog.ret p | None => PAmt.io_new o end) (match e' with Some p => Prog.ret p | None => PAmt.io_new o end).
Proof using Ho. intros He. destruct e, e'; simpl in He; try done; [by apply as_Ret|apply (oa_new _ Ho)]. Qed.
Lemma as_add_item β r r' k h d l l' idx : β r r' -> lref_as β l l' ->
  pas eq_as β (PAmt.add_item F o r k h d l idx) (PAmt.add_item F o r' k h d l' idx).
Proof using HF Ho.
  intros Hr Hl. unfold PAmt.add_item. eapply as_bind.
  { instantiate (1 := optr_as). destruct (PAmt.io_early o); [|by apply as_Ret]. bd; [apply (oa_new _ Ho)|]. by apply as_Ret. }
  intros β' e e' Hm He. lift Hm. bd; [by apply as_load_link|].
  fx. eapply as_bind.
  { instantiate (1 := eq_as). destruct (_ || _).
    - bd; [by apply as_shift_up|]. bd; [by apply as_mk|]. apply as_store_at; [done|]. by apply (fa_leaf _ HF).
    - bd; [apply as_new_link_array|]. bd. { apply as_upd_link; [done|]. intros β3 z z' Hm Hz. lift Hm. by apply with_ptr_as. }
      bd; [by apply as_copy_range|]. bd; [by apply as_mk|]. bd; [apply as_store_at; [done|by apply (fa_leaf _ HF)]|].
      by apply as_copy_range. }
  intros β3 ? ? Hm _. lift Hm.
  bd. { apply as_upd_link; [done|]. intros β4 z z' _ Hz. pose proof Hz as (_ & -> & _). by apply with_pmap_as. }
  bd. { apply as_upd_link; [done|]. intros β4 z z' _ Hz. pose proof Hz as (_ & _ & ->). by apply with_tmap_as. }
  by apply as_count_in.
Qed.
Lemma as_add_present β fuel r r' s k h d l l' i i' : β r r' -> lref_as β l l' -> lref_as β i i' ->
  pas eq_as β (PAmt.add_present F o fuel r s k h d l i) (PAmt.add_present F o fuel r' s k h d l' i').
Proof using HF Ho.
  intros Hr Hl Hi. unfold PAmt.add_present. bd; [by apply as_load_link|]. bd; [by apply (fa_key _ HF), link_as_intro|]. fx.
  destruct (PAmt.f_eq _ _ _); [by apply (oa_found _ Ho), link_as_intro|].
  destruct (PAmt.f_conf _ _ _ _ _ _) as [ch|]; [|apply as_Hang]. destruct (_ && _).
  - bd; [apply (oa_split _ Ho)|]. apply as_upd_link; [done|]. intros β' z z' Hm Hz. lift Hm. by apply with_ptr_as.
  - bd. { apply as_upd_link; [done|]. intros β' z z' _ Hz. pose proof Hz as (_ & _ & ->). by apply with_tmap_as. }
    bd. { apply as_upd_root; [done|]. intros β' z z' _ Hz. pose proof Hz as (_ & _ & _ & -> & _). by apply with_dep_as. }
    fx. by apply as_split.
Qed.
Lemma as_insert β fuel r r' k : β r r' -> pas eq_as β (PAmt.insert F o fuel (Some r) k) (PAmt.insert F o fuel (Some r') k).
Proof using HF Ho.
  intros Hr. unfold PAmt.insert. bd; [by apply as_load_root|]. destruct Hx as (_ & Hs & _). rewrite Hs.
  bd; [by apply as_descend_none|]. destruct x0 as [? ? ? ? ?|? ? ? ? ? ?], y0 as [? ? ? ? ?|? ? ? ? ? ?]; simpl in Hx; try done.
  - destruct Hx as (-> & -> & -> & Hl & _). bd; [by apply as_load_link|]. fx. by apply as_add_item.
  - destruct Hx as (-> & -> & -> & Hl & Hi & _). by apply as_add_present.
Qed.
End amt.

Section ops.
Context {K HS V CK U : Type}.
Local Notation M := (Prog.prog V CK U).
Local Notation pas as_ β p q := (prog_as (V:=V) (CK:=CK) (U:=U) as_ β p q).
Context (F : PAmt.fam K HS V CK U) (HF : fam_as F).

Lemma set_op_as k v : op_as (PAmt.set_op F k v).
Proof using HF. split; simpl; [|intros; apply (fa_new _ HF)..]. intros β x y (Hp & _). by apply as_store_val. Qed.
Lemma add_op_as zero k : op_as (PAmt.add_op F zero k).
Proof using HF. split; simpl; [|intros; apply (fa_new _ HF)..]. intros β x y _. apply as_eqret. Qed.
Lemma mod_op_as zero k (md : ptr -> bool -> M unit) : (∀ β p q b, ptr_as β p q -> pas eq_as β (md p b) (md q b)) ->
  op_as (PAmt.mod_op F zero k md).
Proof using HF.
  intros Hmd. assert (Hnew : ∀ β, pas ptr_as β (PAmt.mod_new F zero k md) (PAmt.mod_new F zero k md)).
  { intros β. unfold PAmt.mod_new. bd; [apply (fa_new _ HF)|]. bd; [by apply Hmd|]. by apply as_Ret. }
  split; simpl; [|done|done]. intros β x y (Hp & _). destruct (lk_ptr x), (lk_ptr y); simpl in Hp; try done; [apply as_Panic|by apply Hmd].
Qed.
Lemma with_check_as (o : PAmt.insop V CK U) : op_as o -> op_as (PAmt.with_check o).
Proof using. intros [H1 H2 H3]. by split. Qed.
Lemma with_split_as (o : PAmt.insop V CK U) s : op_as o -> (∀ β, pas ptr_as β s s) -> op_as (PAmt.with_split o s).
Proof using. intros [H1 H2 H3] Hs. by split. Qed.

(** ** Del *)
Lemma with_path_as β x y p q : root_as β x y -> Forall2 (plink_as β) p q -> root_as β (rt_with_path p x) (rt_with_path q y).
Proof using. intros (? & ? & ? & ? & ?) Hp. unfold root_as. by split_and!. Qed.
Lemma as_path_push β r r' p q n l l' : β r r' -> path_as β p q -> lref_as β l l' ->
  pas path_as β (PAmt.path_push r p n l) (PAmt.path_push r' q n l').
Proof using.
  intros Hr Hp Hl. destruct p as [i|xs], q as [i'|xs']; simpl in Hp; try done; simpl.
  - subst i'. bd; [by apply as_load_root|]. pose proof Hx as (_ & _ & _ & _ & Hpa). destruct (_ <? _)%nat.
    + bd. { apply as_upd_root; [done|]. intros β' z z' Hm Hz. lift Hm. apply with_path_as; [done|]. apply Forall2_insert; [apply Hz|]. by split. }
      by apply as_Ret.
    + apply as_Ret. simpl. apply Forall2_app; [by apply Forall2_take|]. constructor; [by split|constructor].
  - apply as_Ret. simpl. apply Forall2_app; [done|]. constructor; [by split|constructor].
Qed.
Lemma Forall2_none {X} (P : X -> X -> Prop) xs ys i : Forall2 P xs ys -> xs !! i = None -> ys !! i = None.
Proof using. intros Hf E. apply lookup_ge_None. apply lookup_ge_None in E. by rewrite <- (Forall2_length _ _ _ Hf). Qed.
Lemma as_path_get β r r' p q i : β r r' -> path_as β p q -> pas plink_as β (PAmt.path_get r p i) (PAmt.path_get r' q i).
Proof using.
  intros Hr Hp. destruct p as [n|xs], q as [n'|xs']; simpl in Hp; try done; simpl.
  - subst n'. bd; [by apply as_load_root|]. destruct Hx as (_ & _ & _ & _ & Hpa). destruct (_ <? _)%nat; [|apply as_Panic].
    destruct (rt_path x !! i) as [z|] eqn:E.
    + destruct (Forall2_lookup_l _ _ _ _ _ Hpa E) as (z' & -> & Hz). by apply as_Ret.
    + rewrite (Forall2_none _ _ _ _ Hpa E). apply as_Panic.
  - destruct (xs !! i) as [z|] eqn:E.
    + destruct (Forall2_lookup_l _ _ _ _ _ Hp E) as (z' & -> & Hz). by apply as_Ret.
    + rewrite (Forall2_none _ _ _ _ Hp E). apply as_Panic.
Qed.
Lemma as_path_clear β r r' p q i : β r r' -> path_as β p q -> pas path_as β (PAmt.path_clear r p i) (PAmt.path_clear r' q i).
Proof using.
  intros Hr Hp. unfold PAmt.path_clear. bd; [by apply as_path_get|]. pose proof Hx as [Hrad _].
  destruct p as [n|xs], q as [n'|xs']; simpl in Hp; try done.
  - subst n'. bd. { apply as_upd_root; [done|]. intros β' z z' Hm Hz. apply with_path_as; [done|]. apply Forall2_insert; [apply Hz|]. by split. }
    by apply as_Ret.
  - apply as_Ret. simpl. apply Forall2_insert; [done|]. by split.
Qed.
Definition pop_as (β : names) (x y : pathv * N * lref) : Prop := path_as β x.1.1 y.1.1 /\ x.1.2 = y.1.2 /\ lref_as β x.2 y.2.
Lemma as_path_pop β r r' p q i : β r r' -> path_as β p q -> pas pop_as β (PAmt.path_pop r p i) (PAmt.path_pop r' q i).
Proof using.
  intros Hr Hp. unfold PAmt.path_pop. bd; [by apply as_path_get|]. bd; [by apply as_path_clear|]. destruct Hx as [Hrad Hl].
  destruct (pl_link x), (pl_link y); try done; [|apply as_Panic]. by apply as_Ret.
Qed.
Definition un_as (β : names) (x y : pathv * lref * nat * N * nat) : Prop :=
  path_as β x.1.1.1.1 y.1.1.1.1 /\ lref_as β x.1.1.1.2 y.1.1.1.2 /\ x.1.1.2 = y.1.1.2 /\ x.1.2 = y.1.2 /\ x.2 = y.2.
Lemma as_unlink β fuel r r' p q l l' i d c : β r r' -> path_as β p q -> lref_as β l l' ->
  pas un_as β (PAmt.unlink fuel r p l i d c) (PAmt.unlink fuel r' q l' i d c).
Proof using.
  revert β p q l l' i d c. induction fuel as [|fuel IH]; intros β p q l l' i d c Hr Hp Hl; cbn [PAmt.unlink]; [apply as_Hang|].
  destruct (_ && _); [|by apply as_Ret].
  bd. { apply as_upd_link; [done|]. intros β' z z' _ Hz. by apply with_ptr_as. }
  bd; [by apply as_path_pop|]. match goal with H : pop_as _ ?x ?y |- _ => destruct x as [[p2 n2] l2], y as [[q2 n2'] l2']; destruct H as (Hp2 & Hn2 & Hl2) end. simpl in Hp2, Hn2, Hl2. subst n2'.
  bd; [by apply as_load_link|]. fx.
  bd. { apply as_upd_link; [done|]. intros β' z z' _ Hz. pose proof Hz as (_ & -> & _). by apply with_pmap_as. }
  bd. { apply as_upd_link; [done|]. intros β' z z' _ Hz. pose proof Hz as (_ & _ & ->). by apply with_tmap_as. }
  bd; [by apply as_load_link|]. fx. by apply IH.
Qed.
Definition co_as (β : names) (x y : pathv * N) : Prop := path_as β x.1 y.1 /\ x.2 = y.2.
Lemma as_collapse β fuel r r' p q l l' d c : β r r' -> path_as β p q -> lref_as β l l' ->
  pas co_as β (PAmt.collapse fuel r p l d c) (PAmt.collapse fuel r' q l' d c).
Proof using.
  revert β p q l l' d c. induction fuel as [|fuel IH]; intros β p q l l' d c Hr Hp Hl; cbn [PAmt.collapse]; [apply as_Hang|].
  bd; [by apply as_load_link|]. fx. destruct (_ && _); [|by apply as_Ret].
  bd; [by apply as_load_link, elem_as|]. bd; [by apply as_store_link, link_as_intro|].
  bd. { apply as_upd_root; [done|]. intros β' z z' _ Hz. pose proof Hz as (_ & _ & _ & -> & _). by apply with_dep_as. }
  bd; [by apply as_path_pop|]. match goal with H : pop_as _ ?x ?y |- _ => destruct x as [[p2 n2] l2], y as [[q2 n2'] l2']; destruct H as (Hp2 & Hn2 & Hl2) end.
  simpl in Hp2, Hn2, Hl2. subst n2'.
  bd. { apply as_upd_link; [done|]. intros β' z z' _ Hz. pose proof Hz as (_ & _ & ->). by apply with_tmap_as. }
  bd; [by apply as_load_link|]. fx. by apply IH.
Qed.
Lemma as_clear_path β fuel r r' p q d : β r r' -> path_as β p q -> pas eq_as β (PAmt.clear_path fuel r p d) (PAmt.clear_path fuel r' q d).
Proof using.
  revert β p q d. induction fuel as [|fuel IH]; intros β p q d Hr Hp; cbn [PAmt.clear_path]; [apply as_Hang|].
  destruct (_ =? _); [apply as_eqret|]. bd; [by apply as_path_clear|]. by apply IH.
Qed.
Lemma as_remove β fuel r r' p q (h : HS * N) d l l' i : β r r' -> path_as β p q -> lref_as β l l' ->
  pas eq_as β (PAmt.remove fuel r p h d l i) (PAmt.remove fuel r' q h d l' i).
Proof using.
  intros Hr Hp Hl. unfold PAmt.remove.
  bd. { apply as_upd_link; [done|]. intros β' z z' _ Hz. pose proof Hz as (_ & -> & _). by apply with_pmap_as. }
  bd. { apply as_upd_link; [done|]. intros β' z z' _ Hz. pose proof Hz as (_ & _ & ->). by apply with_tmap_as. }
  bd. { apply as_upd_root; [done|]. intros β' z z' _ Hz. pose proof Hz as (_ & _ & -> & _). by apply with_len_as. }
  bd. { apply as_upd_root; [done|]. intros β' z z' _ Hz. pose proof Hz as (_ & _ & _ & -> & _). by apply with_dep_as. }
  bd; [by apply as_path_clear|]. bd; [by apply as_load_link|]. fx. bd; [by apply as_unlink|].
  match goal with H : un_as _ ?x ?y |- _ => destruct x as [[[[p2 l2] i2] d2] c2], y as [[[[q2 l2'] i2'] d2'] c2']; destruct H as (Hp2 & Hl2 & Hi2 & Hd2 & Hc2) end.
  simpl in Hp2, Hl2, Hi2, Hd2, Hc2. subst i2' d2' c2'.
  bd; [by apply as_load_link|]. fx. eapply as_bind.
  { instantiate (1 := eq_as). destruct (_ && _); [|apply as_eqret]. bd; [apply as_new_link_array|].
    bd. { apply as_upd_link; [done|]. intros β' z z' Hm Hz. lift Hm. by apply with_ptr_as. } by apply as_copy_range. }
  intros β' ? ? Hm _. lift Hm. bd; [by apply as_load_link|]. bd; [by apply as_copy_range|]. bd; [by apply as_collapse|].
  destruct x0 as [pe de], y5 as [qe de']; destruct Hx0 as (Hpe & Hde). simpl in Hpe, Hde. subst de'.
  by apply as_clear_path.
Qed.
Lemma as_delete_gen β miss fuel r r' k : β r r' -> pas eq_as β (PAmt.delete_gen F miss fuel (Some r) k) (PAmt.delete_gen F miss fuel (Some r') k).
Proof using HF.
  intros Hr. unfold PAmt.delete_gen. bd; [by apply as_load_root|]. destruct Hx as (_ & Hs & _). rewrite Hs.
  bd. { apply (as_descend F path_as β0); [by intros ? ? ? ?; apply path_more| |apply more_refl|done|done].
    intros β' a a' n l l' Hm Ha Hl. lift Hm. by apply as_path_push. }
  match goal with H : found_as _ _ ?x ?y |- _ => destruct x as [? ? ? ? ?|? ? ? ? ? ?], y as [? ? ? ? ?|? ? ? ? ? ?]; simpl in H; try done; [apply as_eqret|] end.
  destruct Hx as (-> & -> & -> & Hl & Hi & Hp). bd; [by apply as_load_link|]. bd; [by apply (fa_key _ HF), link_as_intro|]. fx.
  destruct (miss _); [apply as_eqret|]. bd; [by apply as_load_link|]. fx. by apply as_remove.
Qed.

(** ** All *)
Lemma as_scan_items β0 (rec : lref -> M bool) act tm n : (∀ β l l', more β0 β -> lref_as β l l' -> pas eq_as β (rec l) (rec l')) ->
  (∀ β x y, more β0 β -> link_as β x y -> pas eq_as β (act x) (act y)) ->
  ∀ β l l' i pm, more β0 β -> lref_as β l l' -> pas eq_as β (PAmt.scan_items rec act l tm n i pm) (PAmt.scan_items rec act l' tm n i pm).
Proof using.
  intros Hrec Hact. induction n as [|n IH]; intros β l l' i pm H0 Hl; cbn [PAmt.scan_items]; [apply as_eqret|].
  eapply as_bind; [by apply as_load_link|]. intros β' x y Hm Hx. apply (more_trans _ _ _ H0) in Hm as Hm1. lift Hm. fx.
  eapply as_bind.
  { instantiate (1 := eq_as). destruct (negb _).
    - eapply as_bind; [by apply as_load_link, elem_as|]. intros β2 x y Hm2 Hx. apply Hact; [by eapply more_trans|done].
    - apply Hrec; [done|by apply elem_as]. }
  intros β2 b b' Hm2 Hb. apply (more_trans _ _ _ Hm1) in Hm2 as Hm3. lift Hm2. unfold eq_as in Hb. subst b'.
  destruct b; [|apply as_eqret]. by apply IH.
Qed.
Lemma as_scan act fuel : (∀ β x y, link_as β x y -> pas eq_as β (act x) (act y)) ->
  ∀ β l l', lref_as β l l' -> pas eq_as β (PAmt.scan act fuel l) (PAmt.scan act fuel l').
Proof using.
  intros Hact. induction fuel as [|fuel IH]; intros β l l' Hl; cbn [PAmt.scan]; [apply as_Hang|].
  bd; [by apply as_load_link|]. fx. apply (as_scan_items β0); [intros; by apply IH|intros; by apply Hact|apply more_refl|done].
Qed.
Lemma as_all_map β fuel r r' (do : K -> ptr -> M bool) : β r r' -> (∀ β k p q, ptr_as β p q -> pas eq_as β (do k p) (do k q)) ->
  pas eq_as β (PAmt.all_map F fuel (Some r) do) (PAmt.all_map F fuel (Some r') do).
Proof using HF.
  intros Hr Hdo. unfold PAmt.all_map. bd; [|by apply as_eqret]. apply as_scan; [|done]. intros β' x y Hx. unfold PAmt.act_map.
  bd; [by apply (fa_key _ HF)|]. fx. destruct p as [|a], p' as [|a']; simpl in Hp; try done; [apply as_Panic|by apply Hdo].
Qed.
Lemma as_all_set β fuel r r' (do : K -> M bool) : β r r' -> (∀ β k, pas eq_as β (do k) (do k)) ->
  pas eq_as β (PAmt.all_set F fuel (Some r) do) (PAmt.all_set F fuel (Some r') do).
Proof using HF.
  intros Hr Hdo. unfold PAmt.all_set. bd; [|by apply as_eqret]. apply as_scan; [|done]. intros β' x y Hx. unfold PAmt.act_set.
  bd; [by apply (fa_key _ HF)|]. fx. by apply Hdo.
Qed.
End ops.
