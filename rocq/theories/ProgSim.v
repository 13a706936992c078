(** The programs of PAmt.v and PFam.v do what Amt.v and Families.v say when nothing
    else runs. *)
From stdpp Require Import base numbers list gmap.
From Verif Require Import GoInt Mem Hash Prog.
From Verif Require Amt Families PAmt PFam.
Local Open Scope N_scope.

(** Descends into binds, calls and matches. *)
Create HintDb sim.
Global Hint Resolve sim_ret sim_panic sim_hang sim_alloc sim_load_root sim_upd_root sim_load_link sim_store_link sim_load_kv
  sim_store_val sim_get_usr sim_put_usr : sim.
Ltac sims := repeat match goal with
  | |- ∀ _, _ => intro
  | |- sim (bind _ _) (Mem.bind _ _) => apply sim_bind
  | |- sim (if ?b then _ else _) _ => destruct b
  | |- sim (match ?x with _ => _ end) _ => destruct x
  | |- sim _ _ => solve [eauto with sim nocore]
  end.

Section sim.
Context {K HS V CK U : Type}.
Local Notation M := (M V CK U).

(** PAmt's family and Amt's have the same functions. *)
Record famsim (P : PAmt.fam K HS V CK U) (F : Amt.fam K HS V CK U) : Prop := FamSim {
  fs_start : PAmt.f_start P = Amt.f_start F;
  fs_next : PAmt.f_next P = Amt.f_next F;
  fs_conf : PAmt.f_conf P = Amt.f_conf F;
  fs_key : ∀ l, sim (PAmt.f_key P l) (Amt.f_key F l);
  fs_leaf : PAmt.f_leaf P = Amt.f_leaf F;
  fs_pair : PAmt.f_pair P = Amt.f_pair F;
  fs_new : ∀ v k, sim (PAmt.f_new P v k) (Amt.f_new F v k);
  fs_eq : PAmt.f_eq P = Amt.f_eq F }.
Record opsim (p : PAmt.insop V CK U) (o : Amt.insop V CK U) : Prop := OpSim {
  os_found : ∀ l, sim (PAmt.io_found p l) (Amt.io_found o l);
  os_new : sim (PAmt.io_new p) (Amt.io_new o);
  os_split : sim (PAmt.io_split p) (Amt.io_split o);
  os_early : PAmt.io_early p = Amt.io_early o;
  os_check : PAmt.io_check p = Amt.io_check o }.

Context (P : PAmt.fam K HS V CK U) (F : Amt.fam K HS V CK U) (HF : famsim P F).
Let Hkey := fs_key _ _ HF.
Let Hnew := fs_new _ _ HF.
Hint Resolve Hkey Hnew : sim.

Lemma sim_new_root s : sim (PAmt.new_root s) (Amt.new_root s : M _).
Proof. unfold PAmt.new_root, Amt.new_root. sims. Qed.
Lemma sim_root_len h : sim (PAmt.root_len h) (Amt.root_len h : M _).
Proof. unfold PAmt.root_len, Amt.root_len. sims. Qed.
Lemma sim_root_dep h : sim (PAmt.root_dep h) (Amt.root_dep h : M _).
Proof. unfold PAmt.root_dep, Amt.root_dep. sims. Qed.
Lemma sim_new_link_array n : sim (PAmt.new_link_array n) (Amt.new_link_array n : M _).
Proof. unfold PAmt.new_link_array, Amt.new_link_array. sims. Qed.
Hint Resolve sim_new_root sim_root_len sim_root_dep sim_new_link_array : sim.

Lemma advance_eq s k d h : PAmt.advance P s k d h = Amt.advance F s k d h.
Proof. unfold PAmt.advance, Amt.advance. by rewrite (fs_next _ _ HF). Qed.

Lemma sim_descend {A} (pv : A -> N -> lref -> prog V CK U A) (v : A -> N -> lref -> M A) s k :
  (∀ a n l, sim (pv a n l) (v a n l)) ->
  ∀ fuel h l d acc, sim (PAmt.descend P pv fuel s k h l d acc) (Amt.descend F v fuel s k h l d acc).
Proof.
  intros Hv. induction fuel as [|fuel IH]; intros h l d acc; simpl; [apply sim_hang|].
  sims; try apply Hv. rewrite advance_eq. apply IH.
Qed.
Lemma sim_no_visit a n l : sim (PAmt.no_visit a n l) (Amt.no_visit a n l : M _).
Proof. apply sim_ret. Qed.
Lemma sim_find fuel h k : sim (PAmt.find P fuel h k) (Amt.find F fuel h k).
Proof.
  unfold PAmt.find, Amt.find. rewrite (fs_start _ _ HF), (fs_eq _ _ HF). sims.
  apply sim_descend, sim_no_visit.
Qed.
Hint Resolve sim_find : sim.
Lemma sim_ptr_of fuel h k : sim (PAmt.ptr_of P fuel h k) (Amt.ptr_of F fuel h k).
Proof. unfold PAmt.ptr_of, Amt.ptr_of. sims. Qed.
Hint Resolve sim_ptr_of : sim.
Lemma sim_get fuel zero h k : sim (PAmt.get P fuel zero h k) (Amt.get F fuel zero h k).
Proof. unfold PAmt.get, Amt.get. sims. Qed.
Lemma sim_val fuel zero h k : sim (PAmt.val P fuel zero h k) (Amt.val F fuel zero h k).
Proof. unfold PAmt.val, Amt.val. sims. Qed.
Lemma sim_has fuel h k : sim (PAmt.has P fuel h k) (Amt.has F fuel h k).
Proof. unfold PAmt.has, Amt.has. sims. Qed.

Lemma sim_load_at p i : sim (PAmt.load_at p i) (Amt.load_at p i : M _).
Proof. apply sim_load_link. Qed.
Lemma sim_store_at p i x : sim (PAmt.store_at p i x) (Amt.store_at p i x : M _).
Proof. apply sim_store_link. Qed.
Lemma sim_upd_link l f : sim (PAmt.upd_link l f) (Amt.upd_link l f : M _).
Proof. unfold PAmt.upd_link, Amt.upd_link. sims. Qed.
Hint Resolve sim_load_at sim_store_at sim_upd_link : sim.
Lemma sim_shift_up p i n : sim (PAmt.shift_up p i n) (Amt.shift_up p i n : M _).
Proof. induction n as [|n IH]; simpl; sims. Qed.
Lemma sim_copy_range src dst so do n : ∀ st, sim (PAmt.copy_range src dst so do st n) (Amt.copy_range src dst so do st n : M _).
Proof. induction n as [|n IH]; intros st; simpl; sims. Qed.
Lemma sim_count_in r n : sim (PAmt.count_in r n) (Amt.count_in r n : M _).
Proof. unfold PAmt.count_in, Amt.count_in. sims. Qed.
Hint Resolve sim_shift_up sim_copy_range sim_count_in : sim.

Section insert.
Context (po : PAmt.insop V CK U) (o : Amt.insop V CK U) (Ho : opsim po o).
Let Hof := os_found _ _ Ho.
Let Hon := os_new _ _ Ho.
Let Hos := os_split _ _ Ho.
Hint Resolve Hof Hon Hos : sim.
Lemma sim_split r s k ck cp : ∀ fuel h ch item d,
  sim (PAmt.split P po fuel r s k ck cp h ch item d) (Amt.split F o fuel r s k ck cp h ch item d).
Proof.
  induction fuel as [|fuel IH]; intros h ch item d; cbn -[PAmt.new_link_array Amt.new_link_array PAmt.upd_link Amt.upd_link PAmt.count_in Amt.count_in]; [apply sim_hang|].
  rewrite !advance_eq, (fs_pair _ _ HF). sims.
Qed.
Hint Resolve sim_split : sim.
Lemma sim_add_item r k h d l i : sim (PAmt.add_item P po r k h d l i) (Amt.add_item F o r k h d l i).
Proof. unfold PAmt.add_item, Amt.add_item. rewrite (os_early _ _ Ho), (fs_leaf _ _ HF). sims. Qed.
Lemma sim_add_present fuel r s k h d l i : sim (PAmt.add_present P po fuel r s k h d l i) (Amt.add_present F o fuel r s k h d l i).
Proof. unfold PAmt.add_present, Amt.add_present. rewrite (os_check _ _ Ho), (fs_eq _ _ HF), (fs_conf _ _ HF). sims. Qed.
Hint Resolve sim_add_item sim_add_present : sim.
Lemma sim_insert fuel h k : sim (PAmt.insert P po fuel h k) (Amt.insert F o fuel h k).
Proof.
  unfold PAmt.insert, Amt.insert. rewrite (fs_start _ _ HF). sims. apply sim_descend, sim_no_visit.
Qed.
End insert.

Lemma sim_set_op k v : opsim (PAmt.set_op P k v) (Amt.set_op F k v).
Proof. split; cbn -[PAmt.upd_link Amt.upd_link load_kv store_val Mem.load_kv Mem.store_val]; sims; try done. Qed.
Lemma sim_mod_op zero k (pf : ptr -> bool -> prog V CK U unit) (f : ptr -> bool -> M unit) : (∀ p b, sim (pf p b) (f p b)) ->
  opsim (PAmt.mod_op P zero k pf) (Amt.mod_op F zero k f).
Proof. intros Hf. split; cbn -[PAmt.upd_link Amt.upd_link load_kv store_val Mem.load_kv Mem.store_val]; unfold PAmt.mod_new, Amt.mod_new; sims; try apply Hf; try done. Qed.
Lemma sim_add_op zero k : opsim (PAmt.add_op P zero k) (Amt.add_op F zero k).
Proof. split; cbn -[PAmt.upd_link Amt.upd_link load_kv store_val Mem.load_kv Mem.store_val]; sims; try done. Qed.
Lemma sim_with_check po o : opsim po o -> opsim (PAmt.with_check po) (Amt.with_check o).
Proof. intros []. by split. Qed.
Lemma sim_with_split po o ps s : opsim po o -> sim ps s -> opsim (PAmt.with_split po ps) (Amt.with_split o s).
Proof. intros [] ?. by split. Qed.

Lemma sim_path_push r p n l : sim (PAmt.path_push r p n l) (Amt.path_push r p n l : M _).
Proof. unfold PAmt.path_push, Amt.path_push. sims. Qed.
Lemma sim_path_get r p i : sim (PAmt.path_get r p i) (Amt.path_get r p i : M _).
Proof. unfold PAmt.path_get, Amt.path_get. sims. Qed.
Hint Resolve sim_path_push sim_path_get : sim.
Lemma sim_path_clear r p i : sim (PAmt.path_clear r p i) (Amt.path_clear r p i : M _).
Proof. unfold PAmt.path_clear, Amt.path_clear. sims. Qed.
Hint Resolve sim_path_clear : sim.
Lemma sim_path_pop r p i : sim (PAmt.path_pop r p i) (Amt.path_pop r p i : M _).
Proof. unfold PAmt.path_pop, Amt.path_pop. sims. Qed.
Hint Resolve sim_path_pop : sim.
Lemma sim_unlink r : ∀ fuel p l i d c, sim (PAmt.unlink fuel r p l i d c) (Amt.unlink fuel r p l i d c : M _).
Proof. induction fuel as [|fuel IH]; intros p l i d c; simpl; [apply sim_hang|]. sims. Qed.
Lemma sim_collapse r : ∀ fuel p l d c, sim (PAmt.collapse fuel r p l d c) (Amt.collapse fuel r p l d c : M _).
Proof. induction fuel as [|fuel IH]; intros p l d c; cbn [PAmt.collapse Amt.collapse]; [apply sim_hang|]. sims. Qed.
Lemma sim_clear_path r : ∀ fuel p d, sim (PAmt.clear_path fuel r p d) (Amt.clear_path fuel r p d : M _).
Proof. induction fuel as [|fuel IH]; intros p d; simpl; [apply sim_hang|]. sims. Qed.
Hint Resolve sim_unlink sim_collapse sim_clear_path : sim.
Lemma sim_remove fuel r p (h : HS * N) d l i : sim (PAmt.remove fuel r p h d l i) (Amt.remove fuel r p h d l i : M _).
Proof. unfold PAmt.remove, Amt.remove. sims. Qed.
Hint Resolve sim_remove : sim.
Lemma sim_delete_gen miss fuel h k : sim (PAmt.delete_gen P miss fuel h k) (Amt.delete_gen F miss fuel h k).
Proof.
  unfold PAmt.delete_gen, Amt.delete_gen. rewrite (fs_start _ _ HF), (fs_eq _ _ HF). sims.
  apply sim_descend, sim_path_push.
Qed.
Lemma sim_delete fuel h k : sim (PAmt.delete P fuel h k) (Amt.delete F fuel h k).
Proof. apply sim_delete_gen. Qed.

Lemma sim_scan_items prec rec pact act l t : (∀ l, sim (prec l) (rec l)) -> (∀ l, sim (pact l) (act l)) ->
  ∀ n i m, sim (PAmt.scan_items prec pact l t n i m) (Amt.scan_items rec act l t n i m : M _).
Proof. intros Hr Ha. induction n as [|n IH]; intros i m; cbn [PAmt.scan_items Amt.scan_items]; sims. Qed.
Lemma sim_scan pact act : (∀ l, sim (pact l) (act l)) -> ∀ fuel l, sim (PAmt.scan pact fuel l) (Amt.scan act fuel l : M _).
Proof. intros Ha. induction fuel as [|fuel IH]; intros l; simpl; [apply sim_hang|]. sims. by apply sim_scan_items. Qed.
Lemma sim_all_map fuel h (pf : K -> ptr -> prog V CK U bool) (f : K -> ptr -> M bool) : (∀ k p, sim (pf k p) (f k p)) ->
  sim (PAmt.all_map P fuel h pf) (Amt.all_map F fuel h f).
Proof.
  intros Hf. unfold PAmt.all_map, Amt.all_map. sims. apply sim_scan. intros x. unfold PAmt.act_map, Amt.act_map. sims.
Qed.
Lemma sim_all_set fuel h (pf : K -> prog V CK U bool) (f : K -> M bool) : (∀ k, sim (pf k) (f k)) ->
  sim (PAmt.all_set P fuel h pf) (Amt.all_set F fuel h f).
Proof.
  intros Hf. unfold PAmt.all_set, Amt.all_set. sims. apply sim_scan. intros x. unfold PAmt.act_set, Amt.act_set. sims.
Qed.
End sim.
