(** The numbers and pointers which the programs of PAmt.v store fit the types of the fields
    into which they are stored, and a write keeps the type of the block. *)
From stdpp Require Import base numbers list gmap.
From Verif Require Import GoInt Mem Prog Spec Client PClient Hash.
From Verif Require Import Amt PAmt PFam ConcClient LayoutSpec LayoutMem.
Import Prog.
Local Open Scope N_scope.

Lemma small_bits x n : x < 2 ^ n <-> ∀ i, n <= i -> N.testbit x i = false.
Proof.
  split.
  - intros Hx i Hi. rewrite <- (N.mod_small x (2 ^ n) Hx). by apply N.mod_pow2_bits_high.
  - intros H. replace x with (x mod 2 ^ n); [apply N.mod_lt, N.pow_nonzero; lia|]. apply N.bits_inj. intros i. destruct (N.lt_ge_cases i n) as [Hi|Hi].
    + by apply N.mod_pow2_bits_low.
    + by rewrite N.mod_pow2_bits_high, H.
Qed.
Lemma lor_small a b n : a < 2 ^ n -> b < 2 ^ n -> N.lor a b < 2 ^ n.
Proof. rewrite !small_bits. intros Ha Hb i Hi. by rewrite N.lor_spec, Ha, Hb. Qed.
Lemma andnot_small a b n : a < 2 ^ n -> andnot a b < 2 ^ n.
Proof. unfold andnot. rewrite !small_bits. intros Ha i Hi. by rewrite N.ldiff_spec, Ha. Qed.
Lemma bit_small r : bit_of r < 2 ^ 32.
Proof. unfold bit_of, shl32, u32. apply N.mod_lt. done. Qed.
Lemma radix_small {HS} (h : HS * N) : radix_of h < 2 ^ 8.
Proof.
  unfold radix_of. change 15 with (N.ones 4). rewrite N.land_ones. pose proof (N.mod_lt h.2 (2 ^ 4) ltac:(done)). change (2 ^ 8) with 256. change (2 ^ 4) with 16 in *. lia.
Qed.
Lemma u64_small x : u64 x < 2 ^ 64.
Proof. unfold u64. apply N.mod_lt. done. Qed.

Section tidy.
Variable p : platform.
Definition fits_ptr (q : ptr) : Prop := addr_of q < top p.
Lemma fits_nil : fits_ptr Nil.
Proof. unfold fits_ptr, top, word. by destruct (wide p). Qed.

Section progs.
Context {V CK U : Type}.
Local Notation M := (prog V CK U).

(** All blocks that the program writes or makes fit, if those that it reads do and the
    allocator returns addresses of the platform; and each write follows a read of a block of
    the same type. [last] is the block that was just read. *)
Fixpoint tidy {A} (last : option (loc * tblock V CK)) (Q : A -> Prop) (q : M A) : Prop :=
  match q with
  | PRet a => Q a
  | PPanic | PFault | PHang => True
  | PRead l k => ∀ b, fits p b -> tidy (Some (l, typed b)) Q (k b)
  | PWrite l b k => fits p b /\ (∃ t, last = Some (l, t) /\ like t (typed b)) /\ tidy None Q k
  | PAlloc b k => fits p b /\ ∀ l, Npos l < top p -> tidy None Q (k l)
  | PGet k => ∀ u, tidy None Q (k u)
  | PPut _ k => tidy None Q k
  end.

Definition any {A} (a : A) : Prop := True.
Lemma tidy_last {A} last Q (q : M A) : tidy None Q q -> tidy last Q q.
Proof. destruct q; simpl; try done. intros (_ & (t & E & _) & _). done. Qed.
Lemma t_bind {A B} last Q Q' (q : M A) (f : A -> M B) : tidy last Q q -> (∀ a, Q a -> tidy None Q' (f a)) -> tidy last Q' (Prog.bind q f).
Proof.
  revert last. induction q as [a| | | |l k IH|l b k IH|b k IH|k IH|u k IH]; intros last Hq Hf; simpl in *; try done.
  - apply tidy_last. by apply Hf.
  - intros b Hb. apply IH; auto.
  - destruct Hq as (H1 & H2 & H3). split_and!; auto.
  - destruct Hq as (H1 & H2). split; [done|]. intros l Hl. apply IH; auto.
  - intros u. apply IH; auto.
  - by apply IH.
Qed.
Lemma t_mono {A} last (Q Q' : A -> Prop) (q : M A) : tidy last Q q -> (∀ a, Q a -> Q' a) -> tidy last Q' q.
Proof.
  revert last. induction q as [a| | | |l k IH|l b k IH|b k IH|k IH|u k IH]; intros last Hq Hf; simpl in *; try done.
  - by apply Hf.
  - intros b Hb. apply IH; auto.
  - destruct Hq as (H1 & H2 & H3). split_and!; auto.
  - destruct Hq as (H1 & H2). split; [done|]. intros l Hl. apply IH; auto.
  - intros u. apply IH; auto.
  - by apply IH.
Qed.
Local Notation ti Q q := (tidy None Q q).

Lemma t_ret {A} (Q : A -> Prop) a : Q a -> ti Q (Prog.ret a).
Proof. done. Qed.
Lemma t_panic {A} (Q : A -> Prop) : ti Q Prog.panic.
Proof. done. Qed.
Lemma t_hang {A} (Q : A -> Prop) : ti Q Prog.hang.
Proof. done. Qed.
Lemma t_alloc b : fits p b -> ti (λ l, Npos l < top p) (Prog.alloc b).
Proof. intros Hb. split; [done|]. by intros l Hl. Qed.
Lemma t_load_root r : ti (λ rt, fits p (BRoot (V:=V) (CK:=CK) rt)) (Prog.load_root r).
Proof. intros b Hb. by destruct b. Qed.
Lemma t_upd_root r f : (∀ rt, fits p (BRoot (V:=V) (CK:=CK) rt) -> fits p (BRoot (V:=V) (CK:=CK) (f rt))) -> ti any (Prog.upd_root r f).
Proof. intros Hf b Hb. destruct b; try done. split; [by apply Hf|]. split; [|done]. eexists. split; [done|]. done. Qed.
Lemma t_load_link l : ti (fits_link p) (Prog.load_link l).
Proof.
  destruct l as [r|a i|]; [| |done]; intros b Hb; destruct b as [ls| |rt]; try done.
  - apply Hb.
  - destruct (ls !! i) as [x|] eqn:E; [|done]. exact (Forall_lookup_1 _ _ _ _ Hb E).
Qed.
Lemma t_store_link l x : fits_link p x -> ti any (Prog.store_link l x).
Proof.
  intros Hx. destruct l as [r|a i|]; [| |done]; intros b Hb; destruct b as [ls| |rt]; try done.
  - split; [split; [done|apply Hb]|]. split; [|done]. eexists. split; [done|]. done.
  - destruct (ls !! i) as [y|] eqn:E; [|done]. split; [by apply Forall_insert|]. split; [|done]. eexists. split; [done|].
    simpl. by rewrite insert_length.
Qed.
Lemma t_load_kv q : ti any (Prog.load_kv q).
Proof. destruct q; [done|]. intros b Hb. by destruct b. Qed.
Lemma t_store_val q v : ti any (Prog.store_val q v).
Proof. destruct q; [done|]. intros b Hb. destruct b; try done. split; [done|]. split; [|done]. eexists. split; [done|]. done. Qed.
Lemma t_get_usr : ti any Prog.get_usr.
Proof. done. Qed.
Lemma t_put_usr u : ti any (Prog.put_usr u).
Proof. done. Qed.
End progs.
End tidy.

Local Arguments Prog.bind : simpl never.
Local Arguments Prog.ret : simpl never.
Local Arguments Prog.load_root : simpl never.
Local Arguments Prog.upd_root : simpl never.
Local Arguments Prog.load_link : simpl never.
Local Arguments Prog.store_link : simpl never.
Local Arguments Prog.load_kv : simpl never.
Local Arguments Prog.store_val : simpl never.
Local Arguments Prog.alloc : simpl never.
Local Arguments tidy : simpl never.

Ltac b1 := eapply t_bind; [|let x := fresh "x" in let Hx := fresh "Hx" in intros x Hx].

Section amt.
Variable p : platform.
Context {K HS V CK U : Type}.
Local Notation M := (prog V CK U).
Local Notation ti Q q := (tidy (V:=V) (CK:=CK) (U:=U) p None Q q).
Local Notation okp := (fits_ptr p).
Local Notation okl := (fits_link p).
Local Notation okr rt := (fits p (BRoot (V:=V) (CK:=CK) rt)).

Lemma with_ptr_ok q x : okp q -> okl x -> okl (lk_with_ptr q x).
Proof. intros Hq (_ & H1 & H2). by split_and!. Qed.
Lemma with_pmap_ok v x : v < 2 ^ 32 -> okl x -> okl (lk_with_pmap v x).
Proof. intros Hv (H & _ & H2). by split_and!. Qed.
Lemma with_tmap_ok v x : v < 2 ^ 32 -> okl x -> okl (lk_with_tmap v x).
Proof. intros Hv (H & H1 & _). by split_and!. Qed.
Lemma zero_ok : okl zero_link.
Proof. split; [apply fits_nil|done]. Qed.

Record fam_tidy (F : PAmt.fam K HS V CK U) : Prop := FamTidy {
  ft_key : ∀ x, okl x -> ti any (PAmt.f_key F x);
  ft_leaf : ∀ k q, okp q -> okl (PAmt.f_leaf F k q);
  ft_pair : ∀ k q x, okp q -> okl x -> okl (PAmt.f_pair F k q x);
  ft_new : ∀ v k, ti okp (PAmt.f_new F v k) }.
Record op_tidy (op : PAmt.insop V CK U) : Prop := OpTidy {
  ot_found : ∀ x, okl x -> ti any (PAmt.io_found op x);
  ot_new : ti okp (PAmt.io_new op);
  ot_split : ti okp (PAmt.io_split op) }.

Lemma t_new_root s : ti any (PAmt.new_root s).
Proof.
  unfold PAmt.new_root. b1; [apply t_alloc; simpl; repeat constructor; apply fits_nil|].
  eapply t_mono; [apply t_alloc|done]. simpl. split; [by split_and!|]. split; [done|]. split; [done|]. repeat constructor.
Qed.
Lemma t_new_link_array n : ti okp (PAmt.new_link_array n).
Proof. unfold PAmt.new_link_array. b1; [apply t_alloc; simpl; apply Forall_replicate, zero_ok|]. by apply t_ret. Qed.
Lemma t_upd_link l f : (∀ x, okl x -> okl (f x)) -> ti any (PAmt.upd_link l f).
Proof. intros Hf. unfold PAmt.upd_link. b1; [apply t_load_link|]. by apply t_store_link, Hf. Qed.
Lemma t_shift_up q i n : ti any (PAmt.shift_up q i n).
Proof.
  induction n as [|n IH]; cbn [PAmt.shift_up]; [by apply t_ret|]. b1; [apply t_load_link|]. b1; [by apply t_store_link|]. done.
Qed.
Lemma t_copy_range src dst so do i n : ti any (PAmt.copy_range src dst so do i n).
Proof.
  revert i. induction n as [|n IH]; intros i; cbn [PAmt.copy_range]; [by apply t_ret|]. b1; [apply t_load_link|]. b1; [by apply t_store_link|]. apply IH.
Qed.
Lemma t_count_in r n : ti any (PAmt.count_in r n).
Proof.
  unfold PAmt.count_in. b1.
  - apply t_upd_root. intros rt (H1 & H2 & H3 & H4). split_and!; try done; [apply H1..|]. apply u64_small.
  - apply t_upd_root. intros rt (H1 & H2 & H3 & H4). split_and!; try done; [apply H1..|]. apply u64_small.
Qed.

Variable F : PAmt.fam K HS V CK U.
Hypothesis HF : fam_tidy F.

Lemma t_descend {A} (visit : A -> N -> lref -> M A) fuel seed k h l d acc : (∀ a r l, r < 2 ^ 8 -> ti any (visit a r l)) ->
  ti any (PAmt.descend F visit fuel seed k h l d acc).
Proof using.
  intros Hv. revert h l d acc. induction fuel as [|fuel IH]; intros h l d acc; cbn [PAmt.descend]; [apply t_hang|].
  b1; [apply t_load_link|]. destruct (_ =? _); [by apply t_ret|]. b1; [apply Hv, radix_small|]. destruct (_ =? _); [|by apply t_ret]. apply IH.
Qed.
Lemma t_find fuel h k : ti (λ o, match o with Some x => okl x | None => True end) (PAmt.find F fuel h k).
Proof using HF.
  destruct h as [r|]; [|done]. unfold PAmt.find. b1; [apply t_load_root|]. b1; [apply t_descend; by intros|].
  destruct x0; [by apply t_ret|]. b1; [apply t_load_link|]. b1; [by apply (ft_key _ HF)|]. apply t_ret. by destruct (PAmt.f_eq F k _).
Qed.
Lemma t_ptr_of fuel h k : ti any (PAmt.ptr_of F fuel h k).
Proof using HF. unfold PAmt.ptr_of. b1; [apply t_find|]. destruct x as [x|]; [|by apply t_ret]. destruct (lk_ptr x); [apply t_panic|by apply t_ret]. Qed.
Lemma t_get fuel zero h k : ti any (PAmt.get F fuel zero h k).
Proof using HF. unfold PAmt.get. b1; [apply t_ptr_of|]. destruct x; [by apply t_ret|]. b1; [apply t_load_kv|]. by apply t_ret. Qed.
Lemma t_val fuel zero h k : ti any (PAmt.val F fuel zero h k).
Proof using HF. destruct h as [r|]; [|done]. unfold PAmt.val. b1; [apply t_ptr_of|]. destruct x; [by apply t_ret|]. b1; [apply t_load_kv|]. by apply t_ret. Qed.
Lemma t_has fuel h k : ti any (PAmt.has F fuel h k).
Proof using HF. unfold PAmt.has. b1; [apply t_find|]. by apply t_ret. Qed.

Section insert.
Variable op : PAmt.insop V CK U.
Hypothesis Hop : op_tidy op.
Lemma t_split fuel r seed k ck cp h ch item d : okp cp -> ti any (PAmt.split F op fuel r seed k ck cp h ch item d).
Proof using HF Hop.
  intros Hcp. revert h ch item d. induction fuel as [|fuel IH]; intros h ch item d; cbn [PAmt.split]; [apply t_hang|].
  b1. { apply t_upd_link. intros y Hy. apply with_pmap_ok; [|done]. apply lor_small; apply bit_small. }
  destruct (negb _).
  - b1. { apply t_upd_link. intros y Hy. apply with_tmap_ok; [apply Hy|done]. }
    b1; [apply t_new_link_array|]. b1. { apply t_upd_link. intros y Hy. by apply with_ptr_ok. }
    b1; [apply (ot_split _ Hop)|]. b1; [apply t_load_link|]. b1; [|apply t_count_in]. instantiate (1 := any).
    destruct (_ <? _); (b1; [apply t_upd_link; intros; by apply (ft_pair _ HF)|]); apply t_upd_link; intros; by apply (ft_pair _ HF).
  - b1; [apply t_new_link_array|]. b1. { apply t_upd_link. intros y Hy. by apply with_ptr_ok. } apply IH.
Qed.
Lemma t_add_item r k h d l idx : ti any (PAmt.add_item F op r k h d l idx).
Proof using HF Hop.
  unfold PAmt.add_item. eapply (t_bind _ _ (λ o, match o with Some q => okp q | None => True end)).
  { destruct (PAmt.io_early op); [|by apply t_ret]. b1; [apply (ot_new _ Hop)|]. by apply t_ret. }
  intros e He. assert (Hmk : ti okp (match e with Some q => Prog.ret q | None => PAmt.io_new op end)).
  { destruct e; [by apply t_ret|apply (ot_new _ Hop)]. }
  b1; [apply t_load_link|]. eapply (t_bind _ _ any).
  { destruct (_ || _).
    - b1; [apply t_shift_up|]. b1; [exact Hmk|]. by apply t_store_link, (ft_leaf _ HF).
    - b1; [apply t_new_link_array|]. b1. { apply t_upd_link. intros y Hy. by apply with_ptr_ok. }
      b1; [apply t_copy_range|]. b1; [exact Hmk|]. b1; [by apply t_store_link, (ft_leaf _ HF)|]. apply t_copy_range. }
  intros _ _. b1. { apply t_upd_link. intros y Hy. apply with_pmap_ok; [|done]. apply lor_small; [apply Hy|apply bit_small]. }
  b1. { apply t_upd_link. intros y Hy. apply with_tmap_ok; [|done]. apply lor_small; [apply Hy|apply bit_small]. }
  apply t_count_in.
Qed.
Lemma t_add_present fuel r seed k h d l item : ti any (PAmt.add_present F op fuel r seed k h d l item).
Proof using HF Hop.
  unfold PAmt.add_present. b1; [apply t_load_link|]. b1; [by apply (ft_key _ HF)|]. destruct (PAmt.f_eq _ _ _); [by apply (ot_found _ Hop)|].
  destruct (PAmt.f_conf _ _ _ _ _ _); [|apply t_hang]. destruct (_ && _).
  - b1; [apply (ot_split _ Hop)|]. apply t_upd_link. intros y Hy. by apply with_ptr_ok.
  - b1. { apply t_upd_link. intros y Hy. apply with_tmap_ok; [|done]. apply andnot_small, Hy. }
    b1. { apply t_upd_root. intros rt (H1 & H2 & H3 & H4). split_and!; try done; [apply H1..|]. apply u64_small. }
    apply t_split. apply Hx.
Qed.
Lemma t_insert fuel h k : ti any (PAmt.insert F op fuel h k).
Proof using HF Hop.
  destruct h as [r|]; [|done]. unfold PAmt.insert. b1; [apply t_load_root|]. b1; [apply t_descend; by intros|].
  destruct x0; [b1; [apply t_load_link|apply t_add_item]|apply t_add_present].
Qed.
End insert.

Lemma set_op_tidy k v : op_tidy (PAmt.set_op F k v).
Proof using HF. split; simpl; [|apply (ft_new _ HF)..]. intros x _. apply t_store_val. Qed.
Lemma add_op_tidy zero k : op_tidy (PAmt.add_op F zero k).
Proof using HF. split; simpl; [|apply (ft_new _ HF)..]. intros x _. by apply t_ret. Qed.
Lemma mod_op_tidy zero k (md : ptr -> bool -> M unit) : (∀ q b, ti any (md q b)) -> op_tidy (PAmt.mod_op F zero k md).
Proof using HF.
  intros Hmd. assert (Hnew : ti okp (PAmt.mod_new F zero k md)).
  { unfold PAmt.mod_new. b1; [apply (ft_new _ HF)|]. b1; [apply Hmd|]. by apply t_ret. }
  split; simpl; [|done|done]. intros x _. destruct (lk_ptr x); [apply t_panic|apply Hmd].
Qed.

(** ** Del *)
Lemma with_path_ok rt q : okr rt -> Forall (λ x, pl_radix x < 2 ^ 8) q -> okr (rt_with_path q rt).
Proof using. intros (H1 & H2 & H3 & H4) Hq. split_and!; try done; apply H1. Qed.
Lemma t_path_push r q n l : n < 2 ^ 8 -> ti any (PAmt.path_push r q n l).
Proof using.
  intros Hn. destruct q as [i|xs]; simpl; [|by apply t_ret]. b1; [apply t_load_root|]. destruct (_ <? _)%nat; [|by apply t_ret].
  b1; [|by apply t_ret]. apply t_upd_root. intros rt Hrt. apply with_path_ok; [done|]. apply Forall_insert; [apply Hrt|done].
Qed.
Lemma t_path_get r q i : ti (λ x, match q with PRoot _ => pl_radix x < 2 ^ 8 | _ => True end) (PAmt.path_get r q i).
Proof using.
  destruct q as [n|xs]; simpl.
  - b1; [apply t_load_root|]. destruct (_ <? _)%nat; [|apply t_panic]. destruct (rt_path x !! i) as [z|] eqn:E; [|apply t_panic]. apply t_ret.
    destruct Hx as (_ & _ & _ & Hx). exact (Forall_lookup_1 _ _ _ _ Hx E).
  - destruct (xs !! i); [by apply t_ret|apply t_panic].
Qed.
Lemma t_path_clear r q i : ti any (PAmt.path_clear r q i).
Proof using.
  unfold PAmt.path_clear. b1; [apply t_path_get|]. destruct q as [n|xs]; [|by apply t_ret]. b1; [|by apply t_ret].
  apply t_upd_root. intros rt Hrt. apply with_path_ok; [done|]. apply Forall_insert; [apply Hrt|done].
Qed.
Lemma t_path_pop r q i : ti any (PAmt.path_pop r q i).
Proof using.
  unfold PAmt.path_pop. b1; [apply t_path_get|]. b1; [apply t_path_clear|]. destruct (pl_link x); [by apply t_ret|apply t_panic].
Qed.
Ltac upd := apply t_upd_link; let y := fresh "y" in let Hy := fresh "Hy" in intros y Hy;
  first [apply with_pmap_ok; [|done]|apply with_tmap_ok; [|done]|apply with_ptr_ok; [|done]];
  try first [apply andnot_small, Hy|apply lor_small; [apply Hy|apply bit_small]|done|apply fits_nil].
Lemma t_unlink fuel r q l i d c : ti any (PAmt.unlink fuel r q l i d c).
Proof using.
  revert q l i d c. induction fuel as [|fuel IH]; intros q l i d c; cbn [PAmt.unlink]; [apply t_hang|].
  destruct (_ && _); [|by apply t_ret]. b1; [upd|]. b1; [apply t_path_pop|]. match goal with x : (pathv * N * lref)%type |- _ => destruct x as [[q2 n2] l2] end.
  b1; [apply t_load_link|]. b1; [upd|]. b1; [upd|]. b1; [apply t_load_link|]. apply IH.
Qed.
Lemma t_collapse fuel r q l d c : ti any (PAmt.collapse fuel r q l d c).
Proof using.
  revert q l d c. induction fuel as [|fuel IH]; intros q l d c; cbn [PAmt.collapse]; [apply t_hang|].
  b1; [apply t_load_link|]. destruct (_ && _); [|by apply t_ret]. b1; [apply t_load_link|]. b1; [by apply t_store_link|].
  b1. { apply t_upd_root. intros rt (H1 & H2 & H3 & H4). split_and!; try done; [apply H1..|]. apply u64_small. }
  b1; [apply t_path_pop|]. match goal with x : (pathv * N * lref)%type |- _ => destruct x as [[q2 n2] l2] end. b1; [upd|]. b1; [apply t_load_link|]. apply IH.
Qed.
Lemma t_clear_path fuel r q d : ti any (PAmt.clear_path fuel r q d).
Proof using.
  revert q d. induction fuel as [|fuel IH]; intros q d; cbn [PAmt.clear_path]; [apply t_hang|].
  destruct (_ =? _); [by apply t_ret|]. b1; [apply t_path_clear|]. apply IH.
Qed.
Lemma t_remove fuel r q (h : HS * N) d l i : ti any (PAmt.remove fuel r q h d l i).
Proof using.
  unfold PAmt.remove. b1; [upd|]. b1; [upd|].
  b1. { apply t_upd_root. intros rt (H1 & H2 & H3 & H4). split_and!; try done; [apply H1..|]. apply u64_small. }
  b1. { apply t_upd_root. intros rt (H1 & H2 & H3 & H4). split_and!; try done; [apply H1..|]. apply u64_small. }
  b1; [apply t_path_clear|]. b1; [apply t_load_link|]. b1; [apply t_unlink|]. match goal with x : (pathv * lref * nat * N * nat)%type |- _ => destruct x as [[[[q2 l2] i2] d2] c2] end.
  b1; [apply t_load_link|]. eapply (t_bind _ _ any).
  { destruct (_ && _); [|by apply t_ret]. b1; [apply t_new_link_array|]. b1; [upd|]. apply t_copy_range. }
  intros _ _. b1; [apply t_load_link|]. b1; [apply t_copy_range|]. b1; [apply t_collapse|]. apply t_clear_path.
Qed.
Lemma t_delete_gen miss fuel h k : ti any (PAmt.delete_gen F miss fuel h k).
Proof using HF.
  destruct h as [r|]; [|done]. unfold PAmt.delete_gen. b1; [apply t_load_root|]. b1; [apply t_descend; intros; by apply t_path_push|].
  destruct x0; [by apply t_ret|]. b1; [apply t_load_link|]. b1; [by apply (ft_key _ HF)|]. destruct (miss _); [by apply t_ret|].
  b1; [apply t_load_link|]. apply t_remove.
Qed.

(** ** All *)
Lemma t_scan_items (rec : lref -> M bool) act l tm n i pm : (∀ l, ti any (rec l)) -> (∀ x, okl x -> ti any (act x)) ->
  ti any (PAmt.scan_items rec act l tm n i pm).
Proof using.
  intros Hrec Hact. revert i pm. induction n as [|n IH]; intros i pm; cbn [PAmt.scan_items]; [by apply t_ret|].
  b1; [apply t_load_link|]. eapply (t_bind _ _ any).
  { destruct (negb _); [|apply Hrec]. b1; [apply t_load_link|]. by apply Hact. }
  intros b _. destruct b; [apply IH|by apply t_ret].
Qed.
Lemma t_scan act fuel l : (∀ x, okl x -> ti any (act x)) -> ti any (PAmt.scan act fuel l).
Proof using.
  intros Hact. revert l. induction fuel as [|fuel IH]; intros l; cbn [PAmt.scan]; [apply t_hang|]. b1; [apply t_load_link|]. by apply t_scan_items.
Qed.
Lemma t_all_map fuel h (do : K -> ptr -> M bool) : (∀ k q, ti any (do k q)) -> ti any (PAmt.all_map F fuel h do).
Proof using HF.
  intros Hdo. destruct h as [r|]; [|done]. unfold PAmt.all_map. b1; [|by apply t_ret]. apply t_scan. intros x Hx. unfold PAmt.act_map.
  b1; [by apply (ft_key _ HF)|]. destruct (lk_ptr x); [apply t_panic|apply Hdo].
Qed.
Lemma t_all_set fuel h (do : K -> M bool) : (∀ k, ti any (do k)) -> ti any (PAmt.all_set F fuel h do).
Proof using HF.
  intros Hdo. destruct h as [r|]; [|done]. unfold PAmt.all_set. b1; [|by apply t_ret]. apply t_scan. intros x Hx. unfold PAmt.act_set.
  b1; [by apply (ft_key _ HF)|]. apply Hdo.
Qed.
End amt.
