(** The reading methods write nothing; insertions of a stored key only touch its
    value; deletions of an absent key only touch the scratch path. In every
    state, for every hash function and comparison of keys. *)
From stdpp Require Import base numbers list gmap.
From Verif Require Import GoInt Mem Hash Amt Families Steps Spec Client Types Readers.
Local Open Scope nat_scope.

Section quiet.
Context {V CK U : Type}.
Local Notation M := (M V CK U).
(** A computation after which the state is the same. *)
Definition quiet {A} (c : M A) : Prop := ∀ w,
  match c w with Ret _ w' | Panic w' => w' = w | _ => True end.
Lemma ret_quiet {A} (a : A) : quiet (ret a).
Proof. done. Qed.
Lemma panic_quiet {A} : quiet (A:=A) panic.
Proof. done. Qed.
Lemma hang_quiet {A} : quiet (A:=A) hang.
Proof. done. Qed.
Lemma bind_quiet {A B} (c : M A) (f : A -> M B) : quiet c -> (∀ a, quiet (f a)) -> quiet (bind c f).
Proof.
  intros Hc Hf w. unfold bind. specialize (Hc w). destruct (c w) as [a w'| | |]; try done. subst. apply Hf.
Qed.
Lemma load_root_quiet r : quiet (load_root r).
Proof. intros w. unfold load_root. by destruct (w_mem w !! r) as [[]|]. Qed.
Lemma load_link_quiet l : quiet (load_link l).
Proof.
  intros w. unfold load_link. destruct l as [r|a i|]; [by destruct (w_mem w !! r) as [[]|]| |done].
  destruct (w_mem w !! a) as [[]|]; try done. by destruct (_ !! i).
Qed.
Lemma load_kv_quiet p : quiet (load_kv p).
Proof. intros w. unfold load_kv. destruct p as [|a]; [done|]. by destruct (w_mem w !! a) as [[]|]. Qed.
Lemma quiet_Ret {A} (c : M A) w a w' : quiet c -> c w = Ret a w' -> w' = w.
Proof. intros Hq He. specialize (Hq w). by rewrite He in Hq. Qed.
Lemma quiet_Panic {A} (c : M A) w w' : quiet c -> c w = Panic w' -> w' = w.
Proof. intros Hq He. specialize (Hq w). by rewrite He in Hq. Qed.
End quiet.

Section ops.
Context {K HS V CK U : Type}.
Local Notation M := (M V CK U).
Variable F : fam K HS V CK U.
Implicit Types (h : option loc) (k : K).

Section reader.
Hypothesis Hkey : ∀ iv, reader (f_key F iv).
Lemma descend_reader fuel seed k : ∀ hs l d, reader (descend F no_visit fuel seed k hs l d tt).
Proof.
  induction fuel as [|fuel IH]; intros hs l d; simpl; [apply hang_reader|].
  apply bind_reader; [apply load_link_reader|]. intros lv. destruct (_ =? 0)%N; [apply ret_reader|].
  apply bind_reader; [apply ret_reader|]. intros []. destruct (_ =? 0)%N; [apply IH|apply ret_reader].
Defined.
Lemma find_reader fuel h k : reader (find F fuel h k).
Proof.
  destruct h as [r|]; [|apply panic_reader]. simpl. apply bind_reader; [apply load_root_reader|]. intros rt.
  apply bind_reader; [apply descend_reader|]. intros [| fuel' hs d l item acc]; [apply ret_reader|].
  apply bind_reader; [apply load_link_reader|]. intros iv. apply bind_reader; [apply Hkey|]. intros ck. apply ret_reader.
Defined.
Lemma ptr_of_reader fuel h k : reader (ptr_of F fuel h k).
Proof.
  apply bind_reader; [apply find_reader|]. intros [iv|]; [|apply ret_reader].
  destruct (lk_ptr iv); [apply panic_reader|apply ret_reader].
Defined.
Lemma get_reader fuel zero h k : reader (get F fuel zero h k).
Proof.
  apply bind_reader; [apply ptr_of_reader|]. intros [|p]; [apply ret_reader|].
  apply bind_reader; [apply load_kv_reader|]. intros x. apply ret_reader.
Defined.
Lemma val_reader fuel zero h k : reader (val F fuel zero h k).
Proof.
  destruct h as [r|]; [|apply ret_reader]. apply bind_reader; [apply ptr_of_reader|].
  intros [|p]; [apply ret_reader|]. apply bind_reader; [apply load_kv_reader|]. intros x. apply ret_reader.
Defined.
Lemma has_reader fuel h k : reader (has F fuel h k).
Proof. apply bind_reader; [apply find_reader|]. intros x. apply ret_reader. Defined.
Lemma len_reader h : reader (V:=V) (CK:=CK) (U:=U) (Len h).
Proof. destruct h as [r|]; [|apply ret_reader]. apply bind_reader; [apply load_root_reader|]. intros rt. apply ret_reader. Defined.
Lemma dep_reader h : reader (V:=V) (CK:=CK) (U:=U) (Dep h).
Proof.
  destruct h as [r|]; [|apply ret_reader]. apply bind_reader; [apply load_root_reader|]. intros rt.
  destruct (_ =? 0)%N; apply ret_reader.
Defined.
Lemma scan_items_reader (rec : lref -> M bool) act l tmap : (∀ x, reader (rec x)) -> (∀ x, reader (act x)) ->
  ∀ n i pmap, reader (scan_items rec act l tmap n i pmap).
Proof.
  intros Hrec Hact. induction n as [|n IH]; intros i pmap; simpl; [apply ret_reader|].
  apply bind_reader; [apply load_link_reader|]. intros lv. apply bind_reader.
  - destruct (negb _); [|apply Hrec]. apply bind_reader; [apply load_link_reader|]. intros iv. apply Hact.
  - intros []; [apply IH|apply ret_reader].
Defined.
Lemma scan_reader act fuel : (∀ x, reader (act x)) -> ∀ l, reader (scan (V:=V) (CK:=CK) (U:=U) act fuel l).
Proof.
  intros Hact. induction fuel as [|fuel IH]; intros l; simpl; [apply hang_reader|].
  apply bind_reader; [apply load_link_reader|]. intros lv. by apply scan_items_reader.
Defined.
Lemma all_map_reader fuel h do : (∀ k p, reader (do k p)) -> reader (all_map F fuel h do).
Proof.
  intros Hdo. destruct h as [r|]; [|apply panic_reader]. apply bind_reader; [|intros; apply ret_reader].
  apply scan_reader. intros x. apply bind_reader; [apply Hkey|]. intros k. destruct (lk_ptr x); [apply panic_reader|apply Hdo].
Defined.
Lemma all_set_reader fuel h do : (∀ k, reader (do k)) -> reader (all_set F fuel h do).
Proof.
  intros Hdo. destruct h as [r|]; [|apply panic_reader]. apply bind_reader; [|intros; apply ret_reader].
  apply scan_reader. intros x. apply bind_reader; [apply Hkey|]. intros k. apply Hdo.
Defined.
End reader.

Section quiet.
Hypothesis Hkey : ∀ iv, quiet (f_key F iv).
Lemma descend_quiet fuel seed k : ∀ hs l d, quiet (descend F no_visit fuel seed k hs l d tt).
Proof.
  induction fuel as [|fuel IH]; intros hs l d; simpl; [done|].
  apply bind_quiet; [apply load_link_quiet|]. intros lv. destruct (_ =? 0)%N; [done|].
  apply bind_quiet; [done|]. intros []. destruct (_ =? 0)%N; [apply IH|done].
Qed.
Lemma find_quiet fuel h k : quiet (find F fuel h k).
Proof.
  destruct h as [r|]; [|done]. simpl. apply bind_quiet; [apply load_root_quiet|]. intros rt.
  apply bind_quiet; [apply descend_quiet|]. intros [| fuel' hs d l item acc]; [done|].
  apply bind_quiet; [apply load_link_quiet|]. intros iv. apply bind_quiet; [apply Hkey|]. done.
Qed.
Lemma ptr_of_quiet fuel h k : quiet (ptr_of F fuel h k).
Proof.
  apply bind_quiet; [apply find_quiet|]. intros [iv|]; [|done]. by destruct (lk_ptr iv).
Qed.
Lemma get_quiet fuel zero h k : quiet (get F fuel zero h k).
Proof.
  apply bind_quiet; [apply ptr_of_quiet|]. intros [|p]; [done|]. by apply bind_quiet; [apply load_kv_quiet|].
Qed.
Lemma val_quiet fuel zero h k : quiet (val F fuel zero h k).
Proof.
  destruct h as [r|]; [|done]. apply bind_quiet; [apply ptr_of_quiet|].
  intros [|p]; [done|]. by apply bind_quiet; [apply load_kv_quiet|].
Qed.
Lemma has_quiet fuel h k : quiet (has F fuel h k).
Proof. by apply bind_quiet; [apply find_quiet|]. Qed.
Lemma len_quiet h : quiet (V:=V) (CK:=CK) (U:=U) (Len h).
Proof. destruct h as [r|]; [|done]. by apply bind_quiet; [apply load_root_quiet|]. Qed.
Lemma dep_quiet h : quiet (V:=V) (CK:=CK) (U:=U) (Dep h).
Proof. destruct h as [r|]; [|done]. apply bind_quiet; [apply load_root_quiet|]. intros rt. by destruct (_ =? 0)%N. Qed.


(** Insertion of a key that is found. F' may rehash a conflicting key in another way. *)
Variable F' : fam K HS V CK U.
Hypothesis Hag : f_start F' = f_start F /\ f_next F' = f_next F /\ f_key F' = f_key F /\ f_eq F' = f_eq F.
Lemma descend_agree {A} (visit : A -> N -> lref -> M A) fuel seed k : ∀ hs l d acc w,
  descend F' visit fuel seed k hs l d acc w = descend F visit fuel seed k hs l d acc w.
Proof using Hag.
  destruct Hag as (_ & Hn & _). induction fuel as [|fuel IH]; intros hs l d acc w; simpl; [done|].
  apply bind_ext. intros lv w1. destruct (_ =? 0)%N; [done|]. apply bind_ext. intros acc' w2.
  destruct (_ =? 0)%N; [|done]. unfold advance. rewrite Hn. apply IH.
Qed.
Lemma insert_found op fuel h k w iv w1 :
  find F fuel h k w = Ret (Some iv) w1 -> w1 = w /\ insert F' op fuel h k w = io_found op iv w.
Proof using Hkey Hag.
  intros Hf. assert (w1 = w) as -> by (eapply quiet_Ret; [apply find_quiet|done]). split; [done|].
  destruct h as [r|]; [|done]. simpl in *. revert Hf. unfold bind at 1. destruct (load_root r w) as [rt w1| | |] eqn:Hr; try done.
  assert (w1 = w) as -> by (eapply quiet_Ret; [apply load_root_quiet|done]). intros Hf.
  rewrite (bind_Ret (load_root r) _ w rt w Hr). destruct Hag as (Hst & Hn & Hk & He).
  unfold bind at 1. rewrite descend_agree, Hst. revert Hf. unfold bind at 1.
  destruct (descend F no_visit fuel (rt_seed rt) k (f_start F (rt_seed rt) k) (RootRef r) 0 tt w) as [x w1| | |] eqn:Hd; try done.
  assert (w1 = w) as -> by (eapply quiet_Ret; [apply descend_quiet|done]).
  destruct x as [|fuel' hs d l item []]; [done|]. unfold add_present. rewrite Hk, He. unfold bind.
  destruct (load_link item w) as [iv' w1| | |] eqn:Hl; try done.
  assert (w1 = w) as -> by (eapply quiet_Ret; [apply load_link_quiet|done]).
  destruct (f_key F iv' w) as [ck w1| | |] eqn:Hck; try done.
  assert (w1 = w) as -> by (eapply quiet_Ret; [apply Hkey|done]).
  destruct (f_eq F k ck); [|done]. intros [=]. by subst.
Qed.
End quiet.

(** ** Deletion of a key that is not found *)

(** w' is w except for the scratch path of the root r. *)
Definition path_only (r : loc) (w w' : world V CK U) : Prop :=
  w_nxt w' = w_nxt w /\ w_usr w' = w_usr w /\
  (∀ b, b ≠ r -> w_mem w' !! b = w_mem w !! b) /\
  ∃ rt p, w_mem w !! r = Some (BRoot rt) /\ w_mem w' !! r = Some (BRoot (rt_with_path p rt)).

Lemma path_only_refl r w rt : w_mem w !! r = Some (BRoot rt) -> path_only r w w.
Proof. intros Hr. repeat split; try done. exists rt, (rt_path rt). split; [done|]. rewrite Hr. by destruct rt. Qed.

Lemma load_link_path r w w' l x w1 : path_only r w w' -> load_link l w = Ret x w1 -> load_link l w' = Ret x w'.
Proof.
  intros (_ & _ & Hne & rt & p & Hr & Hr'). unfold load_link. destruct l as [r'|a i|]; [| |done].
  - destruct (decide (r' = r)) as [->|Hn]; [rewrite Hr, Hr'; simpl; congruence|].
    rewrite Hne by done. destruct (w_mem w !! r') as [[]|]; congruence.
  - destruct (decide (a = r)) as [->|Hn]; [by rewrite Hr|].
    rewrite Hne by done. destruct (w_mem w !! a) as [[]|]; try done. destruct (_ !! i); congruence.
Qed.
Lemma load_kv_path r w w' p x w1 : path_only r w w' -> load_kv p w = Ret x w1 -> load_kv p w' = Ret x w'.
Proof.
  intros (_ & _ & Hne & rt & q & Hr & Hr'). unfold load_kv. destruct p as [|a]; [done|].
  destruct (decide (a = r)) as [->|Hn]; [by rewrite Hr|].
  rewrite Hne by done. destruct (w_mem w !! a) as [[]|]; congruence.
Qed.

Lemma path_push_only r w w' p radix l : path_only r w w' ->
  ∃ p' w2, path_push r p radix l w' = Ret p' w2 /\ path_only r w w2.
Proof.
  intros Hp. pose proof Hp as (Hx & Hu & Hne & rt & q & Hr & Hr'). destruct p as [n|q']; simpl; [|by eauto].
  unfold bind at 1. rewrite (load_root_step r w' _ Hr'). destruct (n <? 12); [|by eexists _, _].
  eexists _, _. split; [unfold bind; by rewrite (upd_root_step r _ w' _ Hr')|].
  simpl. repeat split; try done.
  - intros b Hb. simpl. unfold mroot. rewrite Hr'. rewrite lookup_insert_ne by done. by apply Hne.
  - eexists rt, _. split; [done|]. simpl. unfold mroot. rewrite Hr'. by rewrite lookup_insert.
Qed.

Lemma descend_path r fuel seed k : ∀ hs l d acc w w' x w1, path_only r w w' ->
  descend F no_visit fuel seed k hs l d tt w = Ret x w1 ->
  ∃ x' w2, descend F (path_push r) fuel seed k hs l d acc w' = Ret x' w2 /\ path_only r w w2 /\
    match x, x' with
    | Missing _ _ _ _ _, Missing _ _ _ _ _ => True
    | Present _ _ _ _ item _, Present _ _ _ _ item' _ => item' = item
    | _, _ => False
    end.
Proof.
  induction fuel as [|fuel IH]; intros hs l d acc w w' x w1 Hp; simpl; [done|].
  unfold bind at 1. destruct (load_link l w) as [lv w2| | |] eqn:Hl; try done.
  assert (w2 = w) as -> by (eapply quiet_Ret; [apply load_link_quiet|done]).
  rewrite (bind_Ret _ _ _ _ _ (load_link_path _ _ _ _ _ _ Hp Hl)).
  destruct (_ =? 0)%N; [intros [= <- <-]; by eexists _, _|].
  unfold no_visit at 1. rewrite bind_ret. destruct (path_push_only r w w' acc (radix_of hs) l Hp) as (p' & w2 & He & Hp2).
  rewrite (bind_Ret _ _ _ _ _ He).
  destruct (_ =? 0)%N; [intros Hd; by eapply IH|]. intros [= <- <-]. by eexists _, _.
Qed.

Hypothesis Hkeyq : ∀ iv, quiet (f_key F iv).
Hypothesis Hkeyp : ∀ r w w' iv k w1, path_only r w w' -> f_key F iv w = Ret k w1 -> f_key F iv w' = Ret k w'.
Lemma delete_absent fuel r k w w1 :
  find F fuel (Some r) k w = Ret None w1 -> ∃ w2, delete F fuel (Some r) k w = Ret tt w2 /\ path_only r w w2.
Proof using Hkeyq Hkeyp.
  simpl. unfold bind at 1. destruct (load_root r w) as [rt w2| | |] eqn:Hr; try done.
  assert (w2 = w) as -> by (eapply quiet_Ret; [apply load_root_quiet|done]).
  rewrite (bind_Ret (load_root r) _ w rt w Hr). unfold bind at 1.
  destruct (descend F no_visit fuel (rt_seed rt) k (f_start F (rt_seed rt) k) (RootRef r) 0 tt w) as [x w2| | |] eqn:Hd; try done.
  assert (w2 = w) as -> by (eapply quiet_Ret; [by apply descend_quiet|done]).
  assert (path_only r w w) as Hp.
  { unfold load_root in Hr. destruct (w_mem w !! r) as [[]|] eqn:Hw; try done. by eapply path_only_refl. }
  destruct (descend_path r fuel _ k _ _ _ (PRoot 0) w w x w Hp Hd) as (x' & w2 & Hd' & Hp2 & Hm).
  rewrite (bind_Ret _ _ _ _ _ Hd').
  destruct x as [|fuel' hs d l item []], x' as [|fuel2 hs' d' l' item' acc']; try done; [by exists w2|].
  subst item'. unfold bind.
  destruct (load_link item w) as [iv w3| | |] eqn:Hl; try done.
  assert (w3 = w) as -> by (eapply quiet_Ret; [apply load_link_quiet|done]).
  rewrite (load_link_path _ _ _ _ _ _ Hp2 Hl).
  destruct (f_key F iv w) as [ck w3| | |] eqn:Hck; try done.
  rewrite (Hkeyp _ _ _ _ _ _ Hp2 Hck). destruct (f_eq F k ck); [done|]. intros _. by exists w2.
Qed.
End ops.

Section keys.
Context {K V U : Type}.
Lemma kv_key_reader iv : reader (kv_key (K:=K) (V:=V) (U:=U) iv).
Proof. apply bind_reader; [apply load_kv_reader|]. intros x. apply ret_reader. Defined.
Lemma int_key_reader iv : reader (int_key (V:=V) (U:=U) iv).
Proof. apply ret_reader. Defined.
Lemma kv_key_quiet iv : quiet (kv_key (K:=K) (V:=V) (U:=U) iv).
Proof. by apply bind_quiet; [apply load_kv_quiet|]. Qed.
Lemma int_key_quiet iv : quiet (int_key (V:=V) (U:=U) iv).
Proof. done. Qed.
Lemma kv_key_path r (w w' : world V K U) iv k w1 :
  path_only r w w' -> kv_key iv w = Ret k w1 -> kv_key iv w' = Ret k w'.
Proof.
  intros Hp. unfold kv_key, bind. destruct (load_kv (lk_ptr iv) w) as [x w2| | |] eqn:He; try done.
  intros [= <- _]. by rewrite (load_kv_path _ _ _ _ _ _ Hp He).
Qed.
Lemma int_key_path r (w w' : world V unit U) iv k w1 :
  path_only r w w' -> int_key iv w = Ret k w1 -> int_key iv w' = Ret k w'.
Proof. intros _ [= <- _]. done. Qed.
End keys.
