(** How often the calls of EAmt.v call the key methods. *)
From stdpp Require Import base numbers list gmap.
From Coq Require Import SpecFloat.
From Verif Require Import GoInt Mem Hash Amt Families Spec Client EAmt MethSpec.
Local Open Scope nat_scope.

Section count.
Context {V CK U C : Type}.
Local Notation E := (M V CK (U * C)).

(** m does not call a key method: it leaves their state as it is. *)
Definition keeps {A} (m : E A) : Prop := ∀ w,
  match m w with Ret _ w' | Panic w' => (w_usr w').2 = (w_usr w).2 | _ => True end.

Lemma k_bind {A B} (m : E A) (k : A -> E B) : keeps m -> (∀ x, keeps (k x)) -> keeps (bind m k).
Proof.
  intros Hm Hk w. specialize (Hm w). unfold bind. destruct (m w) as [x w'|w'| |]; try done.
  specialize (Hk x w'). destruct (k x w'); try done; congruence.
Qed.
Lemma k_ret {A} (a : A) : keeps (ret a).
Proof. done. Qed.
Lemma k_panic {A} : keeps (panic (A:=A)).
Proof. done. Qed.
Lemma k_hang {A} : keeps (hang (A:=A)).
Proof. done. Qed.
Lemma k_load_root r : keeps (load_root r).
Proof. intros w. unfold load_root. destruct (w_mem w !! r) as [[| |]|]; try done. Qed.
Lemma k_load_link l : keeps (load_link l).
Proof.
  intros w. unfold load_link. destruct l as [r|a i|]; [| |done].
  - destruct (w_mem w !! r) as [[| |]|]; try done.
  - destruct (w_mem w !! a) as [[ls| |]|]; try done. by destruct (ls !! i).
Qed.
Lemma k_load_kv p : keeps (load_kv p).
Proof. intros w. unfold load_kv. destruct p as [|l]; [done|]. destruct (w_mem w !! l) as [[| |]|]; try done. Qed.
Lemma k_upd_root r f : keeps (upd_root r f).
Proof. intros w. unfold upd_root. destruct (w_mem w !! r) as [[| |]|]; try done. Qed.
Lemma k_store_link l x : keeps (store_link l x).
Proof.
  intros w. unfold store_link. destruct l as [r|a i|]; [| |done].
  - destruct (w_mem w !! r) as [[| |]|]; try done.
  - destruct (w_mem w !! a) as [[ls| |]|]; try done. by destruct (ls !! i).
Qed.
Lemma k_store_val p v : keeps (store_val p v).
Proof. intros w. unfold store_val. destruct p as [|l]; [done|]. destruct (w_mem w !! l) as [[| |]|]; try done. Qed.
Lemma k_alloc b : keeps (alloc b).
Proof. intros w. done. Qed.
Ltac rb := apply k_bind; [|intros ?].
Ltac re := first [apply k_ret | apply k_panic | apply k_hang | apply k_load_root | apply k_load_link | apply k_load_kv
  | apply k_upd_root | apply k_store_link | apply k_store_val | apply k_alloc].

(** ** The code without key methods *)
Lemma k_upd_link l f : keeps (upd_link l f).
Proof. unfold upd_link. rb; re. Qed.
Lemma k_new_link_array n : keeps (new_link_array n).
Proof. unfold new_link_array. rb; re. Qed.
Lemma k_shift_up p i n : keeps (shift_up p i n).
Proof. induction n as [|n IH]; simpl; [re|]. unfold load_at, store_at. rb; [re|]. rb; [re|]. exact IH. Qed.
Lemma k_copy_range s d so do i n : keeps (copy_range s d so do i n).
Proof. revert i. induction n as [|n IH]; intros i; simpl; [re|]. unfold load_at, store_at. rb; [re|]. rb; [re|]. apply IH. Qed.
Lemma k_count_in r n : keeps (count_in r n).
Proof. unfold count_in. rb; re. Qed.
Ltac re' := first [re | apply k_upd_link | apply k_new_link_array | apply k_shift_up | apply k_copy_range | apply k_count_in].
Lemma k_New s : keeps (New s).
Proof. unfold New, new_root. rb; [rb; re|]. re. Qed.
Lemma k_Len h : keeps (Len h).
Proof. unfold Len, root_len. destruct h; [|re]. rb; re. Qed.
Lemma k_Dep h : keeps (Dep h).
Proof. unfold Dep, root_dep. destruct h; [|re]. rb; [re|]. destruct (_ =? _)%N; re. Qed.

(** The operations of [insop] call no key method. *)
Record quiet_op (op : insop V CK (U * C)) : Prop := QuietOp {
  qo_found : ∀ iv, keeps (io_found op iv);
  qo_new : keeps (io_new op);
  qo_split : keeps (io_split op) }.
Lemma k_add_item {K HS} (B : fam K HS V CK (U * C)) op r k h d l i : quiet_op op -> keeps (add_item B op r k h d l i).
Proof.
  intros [Hf Hn Hs]. unfold add_item. rb; [destruct (io_early op); [rb; [done|re]|re]|]. rb; [re|]. rb.
  - assert (Hm : keeps (match x with Some p => ret p | None => io_new op end)) by (destruct x; [re|done]).
    destruct (_ || _).
    + rb; [re'|]. rb; [done|]. unfold store_at. re.
    + rb; [re'|]. rb; [re'|]. rb; [re'|]. rb; [done|]. unfold store_at. rb; re'.
  - rb; [re'|]. rb; [re'|]. re'.
Qed.
Lemma k_path_get r p i : keeps (path_get r p i).
Proof.
  unfold path_get. destruct p as [n|q].
  - rb; [re|]. destruct (_ <? _); [|re]. destruct (_ !! _); re.
  - destruct (_ !! _); re.
Qed.
Lemma k_path_clear r p i : keeps (path_clear r p i).
Proof. unfold path_clear. rb; [apply k_path_get|]. destruct p; [rb; re|re]. Qed.
Lemma k_path_pop r p i : keeps (path_pop r p i).
Proof. unfold path_pop. rb; [apply k_path_get|]. rb; [apply k_path_clear|]. destruct (pl_link _); re. Qed.
Lemma k_path_push r p x l : keeps (path_push r p x l).
Proof. unfold path_push. destruct p; [|re]. rb; [re|]. destruct (_ <? _); [rb; re|re]. Qed.
Lemma k_unlink f r p l i d c : keeps (unlink f r p l i d c).
Proof.
  revert p l i d c. induction f as [|f IH]; intros p l i d c; simpl; [re|]. destruct (_ && _); [|re].
  rb; [re'|]. rb; [apply k_path_pop|]. destruct x0 as [[p' y] l']. rb; [re|]. rb; [re'|]. rb; [re'|]. rb; [re|]. apply IH.
Qed.
Lemma k_collapse f r p l d c : keeps (collapse f r p l d c).
Proof.
  revert p l d c. induction f as [|f IH]; intros p l d c; simpl; [re|]. rb; [re|]. destruct (_ && _); [|re].
  rb; [re|]. rb; [re|]. rb; [re|]. rb; [apply k_path_pop|]. destruct x3 as [[p' y] l']. rb; [re'|]. rb; [re|]. apply IH.
Qed.
Lemma k_clear_path f r p d : keeps (clear_path f r p d).
Proof.
  revert p d. induction f as [|f IH]; intros p d; simpl; [re|]. destruct (_ =? _)%N; [re|]. rb; [apply k_path_clear|]. apply IH.
Qed.
Lemma k_remove {HS} f r p (h : HS * N) d l i : keeps (remove f r p h d l i).
Proof.
  unfold remove. rb; [re'|]. rb; [re'|]. rb; [re|]. rb; [re|]. rb; [apply k_path_clear|]. rb; [re|]. rb; [apply k_unlink|].
  destruct x5 as [[[[p' l'] i'] d'] c']. rb; [re|]. rb.
  { destruct (_ && _); [|re]. rb; [re'|]. rb; [re'|]. re'. }
  rb; [re|]. rb; [re'|]. rb; [apply k_collapse|]. apply k_clear_path.
Qed.
Lemma k_scan_items rec act l t n i p : (∀ x, keeps (rec x)) -> (∀ x, keeps (act x)) -> keeps (scan_items rec act l t n i p).
Proof.
  intros Hr Ha. revert i p. induction n as [|n IH]; intros i p; simpl; [re|].
  rb; [re|]. rb; [destruct (negb _); [rb; [re|apply Ha]|apply Hr]|]. destruct x0; [apply IH|re].
Qed.
Lemma k_scan act f l : (∀ x, keeps (act x)) -> keeps (scan act f l).
Proof.
  intros Ha. revert l. induction f as [|f IH]; intros l; simpl; [re|]. rb; [re|]. by apply k_scan_items.
Qed.


(** ** Logs

    log: the calls that some of the methods have seen, oldest first. *)
Context {X : Type} (log : C -> list X).

(** m calls the methods with a list of arguments that satisfies P. *)
Definition says {A} (P : list X -> Prop) (m : E A) : Prop := ∀ w,
  match m w with
  | Ret _ w' | Panic w' => ∃ l, P l /\ log (w_usr w').2 = log (w_usr w).2 ++ l
  | _ => True
  end.

Lemma s_keeps {A} (P : list X -> Prop) (m : E A) : P [] -> keeps m -> says P m.
Proof. intros HP Hm w. specialize (Hm w). destruct (m w); try done; exists []; by rewrite Hm, app_nil_r. Qed.
Lemma s_mono {A} (P Q : list X -> Prop) (m : E A) : (∀ l, P l -> Q l) -> says P m -> says Q m.
Proof. intros HPQ Hm w. specialize (Hm w). destruct (m w); try done; naive_solver. Qed.
Lemma s_bind {A B} (P Q R : list X -> Prop) (m : E A) (k : A -> E B) :
  (∀ l, P l -> R l) -> (∀ l l', P l -> Q l' -> R (l ++ l')) -> says P m -> (∀ x, says Q (k x)) -> says R (bind m k).
Proof.
  intros HP HR Hm Hk w. specialize (Hm w). unfold bind. destruct (m w) as [x w'|w'| |]; try done.
  - destruct Hm as (l & Hl & El). specialize (Hk x w'). destruct (k x w'); try done; destruct Hk as (l' & Hl' & El');
      (exists (l ++ l'); split; [by apply HR|]; by rewrite El', El, app_assoc).
  - destruct Hm as (l & Hl & El). exists l. auto.
Qed.
(** Code before and after the calls of methods. *)
Lemma s_pre {A B} (Q : list X -> Prop) (m : E A) (k : A -> E B) : Q [] -> keeps m -> (∀ x, says Q (k x)) -> says Q (bind m k).
Proof.
  intros H0 Hm Hk. eapply (s_bind (λ l, l = []) Q); [by intros ? ->|by intros ? ? -> ?|by apply s_keeps|done].
Qed.
Lemma s_post {A B} (P : list X -> Prop) (m : E A) (k : A -> E B) : says P m -> (∀ x, keeps (k x)) -> says P (bind m k).
Proof.
  intros Hm Hk. eapply (s_bind P (λ l, l = [])); [done|intros l ? ? ->; by rewrite app_nil_r|done|intros x; by apply s_keeps].
Qed.
Lemma s_meth {A} l (f : C -> C * option A) : (∀ c, log (f c).1 = log c ++ l) -> says (λ l', l' = l) (meth f).
Proof.
  intros Hf w. specialize (Hf (w_usr w).2). unfold meth, bind, get_usr, put_usr. simpl.
  destruct ((f (w_usr w).2).2); simpl; eauto.
Qed.

(** *** Methods that are called at fixed places *)
Section methods.
Context {K HS : Type} (F : efam K HS V CK U C) (a : K -> list X) (eq : K -> K -> list X) (cf : K -> list X).
Hypothesis Hstart : ∀ s k, says (λ l, l = a k) (e_start F s k).
Hypothesis Hnext : ∀ s k d h, says (λ l, l = []) (e_next F s k d h).
Hypothesis Hconf : ∀ n s k ck d, says (λ l, l = cf ck) (e_conf F n s k ck d).
Hypothesis Heq : ∀ k ck, says (λ l, l = eq k ck) (e_eq F k ck).
Hypothesis Hkey : ∀ iv, keeps (f_key (e_base F) iv).
Local Notation nothing := (λ l : list X, l = []).

(** What a lookup of k calls, and what an insertion of k calls. *)
Definition looks (k : K) (l : list X) : Prop := l = [] \/ l = a k \/ ∃ ck, l = a k ++ eq k ck.
Definition inserts (k : K) (l : list X) : Prop := looks k l \/ ∃ ck, l = a k ++ eq k ck ++ cf ck.

Ltac sb := apply s_pre; [done| |intros ?].
Ltac sn := apply s_keeps; [done|re'].

Lemma s_eadvance s k d h : says nothing (eadvance F s k d h).
Proof. unfold eadvance. destruct (negb _); [sn|apply Hnext]. Qed.
Lemma s_none {A B} (m : E A) (k : A -> E B) : says nothing m -> (∀ x, says nothing (k x)) -> says nothing (bind m k).
Proof. intros Hm Hk. eapply (s_bind nothing nothing); [done|by intros ? ? -> ->|done|done]. Qed.
Lemma s_first {A B} (Q : list X -> Prop) (m : E A) (k : A -> E B) : Q [] -> says nothing m -> (∀ x, says Q (k x)) -> says Q (bind m k).
Proof. intros H0 Hm Hk. eapply (s_bind nothing Q); [by intros ? ->|by intros ? ? -> ?|done|done]. Qed.
Lemma s_edescend {Y} (visit : Y -> N -> lref -> E Y) n s k h l d x : (∀ x r l, keeps (visit x r l)) ->
  says nothing (edescend F visit n s k h l d x).
Proof.
  intros Hv. revert h l d x. induction n as [|n IH]; intros h l d x; simpl; [sn|]. sb; [re|].
  destruct (_ =? _)%N; [sn|]. sb; [apply Hv|]. destruct (_ =? _)%N; [|sn]. apply s_none; [apply s_eadvance|]. intros; apply IH.
Qed.
Lemma s_efind n h k : says (looks k) (efind F n h k).
Proof.
  unfold efind. destruct h; [|apply s_keeps; [by left|re]]. apply s_pre; [by left|re|]. intros rt.
  eapply (s_bind _ (λ l, l = [] \/ ∃ ck, l = eq k ck)); [| |apply Hstart|].
  - intros ? ->. by right; left.
  - intros ? ? -> [->|[ck ->]]; [rewrite app_nil_r; by right; left|]. right. right. by exists ck.
  - intros hs. apply s_first; [by left|apply s_edescend; intros; apply k_ret|]. intros [|]; [apply s_keeps; [by left|re]|].
    apply s_pre; [by left|re|]. intros iv. apply s_pre; [by left|apply Hkey|]. intros ck.
    apply s_post; [|intros; re]. eapply s_mono; [|apply Heq]. intros ? ->. right. by exists ck.
Qed.
Lemma s_eptr n h k : says (looks k) (eptr_of F n h k).
Proof. unfold eptr_of. apply s_post; [apply s_efind|]. intros [iv|]; [|re]. destruct (lk_ptr iv); re. Qed.
Lemma s_eget n z h k : says (looks k) (eget F n z h k).
Proof. unfold eget. apply s_post; [apply s_eptr|]. intros [|q]; [re|]. rb; re. Qed.
Lemma s_eval n z h k : says (looks k) (eval F n z h k).
Proof.
  unfold eval. destruct h; [|apply s_keeps; [by left|re]]. apply s_post; [apply s_eptr|]. intros [|q]; [re|]. rb; re.
Qed.
Lemma s_ehas n h k : says (looks k) (ehas F n h k).
Proof. unfold ehas. apply s_post; [apply s_efind|]. intros; re. Qed.
Lemma s_esplit op n r s k ck cp h ch item d : quiet_op op -> says nothing (esplit F op n r s k ck cp h ch item d).
Proof.
  intros Ho. revert h ch item d. induction n as [|n IH]; intros h ch item d; simpl; [sn|].
  apply s_none; [apply s_eadvance|]. intros ?. apply s_none; [apply s_eadvance|]. intros ?. sb; [re'|]. destruct (negb _).
  - sb; [re'|]. sb; [re'|]. sb; [re'|]. sb; [apply (qo_split _ Ho)|]. sb; [re|]. sb; [|sn].
    destruct (_ <? _)%N; (rb; re').
  - sb; [re'|]. sb; [re'|]. apply IH.
Qed.
Lemma s_einsert op n h k : quiet_op op -> says (inserts k) (einsert F op n h k).
Proof.
  intros Ho. assert (H0 : inserts k []) by (by left; left).
  unfold einsert. destruct h; [|apply s_keeps; [done|re]]. apply s_pre; [done|re|]. intros rt.
  eapply (s_bind _ (λ l, l = [] \/ ∃ ck, l = eq k ck \/ l = eq k ck ++ cf ck)); [| |apply Hstart|].
  - intros ? ->. by left; right; left.
  - intros ? ? -> [->|[ck [->| ->]]]; [rewrite app_nil_r; by left; right; left| |].
    + left. right. right. by exists ck.
    + right. by exists ck.
  - intros hs. apply s_first; [by left|apply s_edescend; intros; apply k_ret|]. intros [|].
    + apply s_pre; [by left|re|]. intros lv. apply s_keeps; [by left|]. by apply k_add_item.
    + unfold eadd_present. apply s_pre; [by left|re|]. intros iv. apply s_pre; [by left|apply Hkey|]. intros ck.
      eapply (s_bind _ (λ l, l = [] \/ l = cf ck)); [| |apply Heq|].
      * intros ? ->. right. exists ck. by left.
      * intros ? ? -> [->| ->]; right; exists ck; [left; by rewrite app_nil_r|by right].
      * intros [|]; [apply s_keeps; [by left|apply (qo_found _ Ho)]|].
        eapply (s_bind _ nothing); [| |apply Hconf|].
        -- intros ? ->. by right.
        -- intros ? ? -> ->. right. by rewrite app_nil_r.
        -- intros [ch|]; [|sn]. sb; [re'|]. sb; [re'|]. by apply s_esplit.
Qed.
Lemma s_edelete n h k : says (looks k) (edelete F n h k).
Proof.
  unfold edelete. destruct h; [|apply s_keeps; [by left|re]]. apply s_pre; [by left|re|]. intros rt.
  eapply (s_bind _ (λ l, l = [] \/ ∃ ck, l = eq k ck)); [| |apply Hstart|].
  - intros ? ->. by right; left.
  - intros ? ? -> [->|[ck ->]]; [rewrite app_nil_r; by right; left|]. right. right. by exists ck.
  - intros hs. apply s_first; [by left|apply s_edescend; intros; apply k_path_push|]. intros [|]; [apply s_keeps; [by left|re]|].
    apply s_pre; [by left|re|]. intros iv. apply s_pre; [by left|apply Hkey|]. intros ck.
    apply s_post; [eapply s_mono; [|apply Heq]; intros ? ->; right; by exists ck|]. intros b. destruct (negb _); [re|]. rb; [re|]. apply k_remove.
Qed.
End methods.
End count.

(** ** Calls *)
Section calls.
Context {K V U C : Type}.
Local Notation Kp := (keeps (V:=V) (CK:=K) (U:=U) (C:=C)).

Lemma k_kv_key iv : Kp (kv_key iv).
Proof. apply k_bind; [apply k_load_kv|]. intros; apply k_ret. Qed.
Lemma k_kv_new v k : Kp (kv_new v k).
Proof. apply k_bind; [apply k_alloc|]. intros; apply k_ret. Qed.
Lemma k_mod_cb (f : U -> V -> bool -> U * V) p b :
  Kp (mod_cb (λ (uc : U * C) v b, ((((f uc.1 v b).1, uc.2), (f uc.1 v b).2))) p b).
Proof.
  intros w. unfold mod_cb, bind, load_kv, get_usr, store_val, put_usr. destruct p as [|l]; simpl; [done|].
  destruct (w_mem w !! l) as [[|v k|]|]; simpl; try done. destruct (w_mem w !! l) as [[|v' k'|]|]; simpl; done.
Qed.
Lemma k_all_cb (f : U -> K -> V -> U * V * bool) k p :
  Kp (all_cb (λ (uc : U * C) k v, ((((f uc.1 k v).1.1, uc.2), (f uc.1 k v).1.2), (f uc.1 k v).2)) k p).
Proof.
  intros w. unfold all_cb, bind, load_kv, get_usr, store_val, put_usr. destruct p as [|l]; simpl; [done|].
  destruct (w_mem w !! l) as [[|v k'|]|]; simpl; try done. destruct (w_mem w !! l) as [[|v' k''|]|]; simpl; done.
Qed.
Lemma k_set_cb (f : U -> K -> U * bool) k : Kp (set_cb (λ (uc : U * C) k, (((f uc.1 k).1, uc.2), (f uc.1 k).2)) k).
Proof. intros w. done. Qed.
Lemma q_set k v : quiet_op (V:=V) (CK:=K) (U:=U) (C:=C) (Amt.set_op kv_base k v).
Proof. constructor; intros; simpl; try apply k_kv_new. apply k_store_val. Qed.
Lemma q_split k v z : quiet_op (V:=V) (CK:=K) (U:=U) (C:=C) (with_split (Amt.set_op kv_base k v) (kv_new z k)).
Proof. constructor; intros; simpl; try apply k_kv_new. apply k_store_val. Qed.
Lemma q_add z k : quiet_op (V:=V) (CK:=K) (U:=U) (C:=C) (add_op kv_base z k).
Proof. constructor; intros; simpl; try apply k_kv_new. apply k_ret. Qed.
Lemma q_mod z k g : (∀ p b, Kp (g p b)) -> quiet_op (V:=V) (CK:=K) (U:=U) (C:=C) (mod_op kv_base z k g).
Proof.
  intros Hg. assert (Hn : Kp (mod_new kv_base z k g)).
  { unfold mod_new. apply k_bind; [apply k_kv_new|]. intros p. apply k_bind; [apply Hg|]. intros; apply k_ret. }
  constructor; intros; simpl; try done. destruct (lk_ptr iv); [apply k_panic|apply Hg].
Qed.
Lemma k_all_map n h g : (∀ k p, Kp (g k p)) -> Kp (all_map kv_base n h g).
Proof.
  intros Hg. unfold all_map. destruct h; [|apply k_panic]. apply k_bind; [|intros; apply k_ret]. apply k_scan.
  intros iv. unfold act_map. apply k_bind; [apply k_kv_key|]. intros k. destruct (lk_ptr iv); [apply k_panic|apply Hg].
Qed.
Lemma k_all_set n h g : (∀ k, Kp (g k)) -> Kp (all_set kv_base n h g).
Proof.
  intros Hg. unfold all_set. destruct h; [|apply k_panic]. apply k_bind; [|intros; apply k_ret]. apply k_scan.
  intros iv. unfold act_set. apply k_bind; [apply k_kv_key|]. intros k. apply Hg.
Qed.

(** ** What the calls of a type say: [look] for lookups and Del, [ins] for Set, Mod and Add,
    nothing for the others. *)
Context {X : Type} (log : C -> list X) (look ins : K -> list X -> Prop).
Local Notation S := (says (CK:=K) (U:=U) log).
Local Notation nothing := (λ l : list X, l = []).

Definition msays (op : mop K V U) : list X -> Prop :=
  match op with
  | MGet _ k | MVal _ k | MPtr _ k | MDel _ k => look k
  | MSet _ k _ | MMod _ k _ => ins k
  | _ => nothing
  end.
Definition ssays (op : sop K U) : list X -> Prop :=
  match op with
  | SHas _ k | SDel _ k => look k
  | SAdd _ k => ins k
  | _ => nothing
  end.
Record mapi_says (api : mapapi K V K (U * C)) : Prop := MapiSays {
  ms_Set : ∀ h k v, S (ins k) (ma_Set api h k v);
  ms_Mod : ∀ h k g, (∀ p b, Kp (g p b)) -> S (ins k) (ma_Mod api h k g);
  ms_Del : ∀ h k, S (look k) (ma_Del api h k);
  ms_Get : ∀ h k, S (look k) (ma_Get api h k);
  ms_Val : ∀ h k, S (look k) (ma_Val api h k);
  ms_Ptr : ∀ h k, S (look k) (ma_Ptr api h k);
  ms_All : ∀ h g, (∀ k p, Kp (g k p)) -> Kp (ma_All api h g) }.
Lemma mcall_says api op : mapi_says api -> S (msays op) (mcall api (emap_op op)).
Proof.
  intros [HS HM HD HG HV HP HA].
  destruct op as [s|h k v|h k f|h k|h k|h k|h k|h|h|h f|p|p v]; unfold mcall, emap_op, msays.
  - apply s_keeps; [done|]. apply k_bind; [apply k_New|]. intros [x|]; done.
  - apply s_post; [apply HS|done].
  - apply s_post; [apply HM|done]. intros; apply k_mod_cb.
  - apply s_post; [apply HD|done].
  - apply s_post; [apply HG|done].
  - apply s_post; [apply HV|done].
  - apply s_post; [apply HP|done].
  - apply s_keeps; [done|]. apply k_bind; [apply k_Len|done].
  - apply s_keeps; [done|]. apply k_bind; [apply k_Dep|done].
  - apply s_keeps; [done|]. apply k_bind; [apply HA; intros; apply k_all_cb|done].
  - apply s_keeps; [done|]. apply k_bind; [apply k_load_kv|done].
  - apply s_keeps; [done|]. apply k_bind; [apply k_store_val|done].
Qed.
End calls.

Section set_calls.
Context {K U C X : Type} (log : C -> list X) (look ins : K -> list X -> Prop).
Local Notation S := (says (V:=unit) (CK:=K) (U:=U) log).
Record seti_says (api : setapi K unit K (U * C)) : Prop := SetiSays {
  ss_Add : ∀ h k, S (ins k) (sa_Add api h k);
  ss_Del : ∀ h k, S (look k) (sa_Del api h k);
  ss_Has : ∀ h k, S (look k) (sa_Has api h k);
  ss_All : ∀ h g, (∀ k, keeps (g k)) -> keeps (sa_All api h g) }.
Lemma scall_says api op : seti_says api -> S (ssays look ins op) (scall api (eset_op op)).
Proof.
  intros [HS HD HG HA].
  destruct op as [s|h k|h k|h k|h|h|h f]; unfold scall, eset_op, ssays.
  - apply s_keeps; [done|]. apply k_bind; [apply k_New|]. intros [x|]; done.
  - apply s_post; [apply HS|done].
  - apply s_post; [apply HD|done].
  - apply s_post; [apply HG|done].
  - apply s_keeps; [done|]. apply k_bind; [apply k_Len|done].
  - apply s_keeps; [done|]. apply k_bind; [apply k_Dep|done].
  - apply s_keeps; [done|]. apply k_bind; [apply HA; intros; apply k_set_cb|done].
Qed.
End set_calls.

(** ** The types *)
Section types.
Context {K V U C X : Type} (zero : V) (fuel : nat) (log : C -> list X) (eq : K -> K -> list X) (a : K -> list X).

Section arr.
Context (sum64 : N -> bytes -> N) (keq : K -> K -> C -> C * option bool) (KeyBytes : K -> C -> C * option bytes).
Hypothesis He : ∀ k k' c, log (keq k k' c).1 = log c ++ eq k k'.
Hypothesis Hk : ∀ k c, log (KeyBytes k c).1 = log c ++ a k.
Local Notation eq' := (λ k ck, eq ck k).
Lemma arr_start {V'} s k : says log (λ l, l = a k) (e_start (arr_efam (V:=V') (U:=U) sum64 keq KeyBytes) s k).
Proof. simpl. apply s_post; [by apply s_meth|done]. Qed.
Lemma arr_next {V'} s k d h : says log (λ l, l = []) (e_next (arr_efam (V:=V') (U:=U) sum64 keq KeyBytes) s k d h).
Proof. by apply s_keeps. Qed.
Lemma arr_conf {V'} n s k ck d : says log (λ l, l = a ck) (e_conf (arr_efam (V:=V') (U:=U) sum64 keq KeyBytes) n s k ck d).
Proof. simpl. apply s_post; [by apply s_meth|done]. Qed.
Lemma arr_eq {V'} k ck : says log (λ l, l = eq ck k) (e_eq (arr_efam (V:=V') (U:=U) sum64 keq KeyBytes) k ck).
Proof. by apply s_meth. Qed.
Lemma arr_says : mapi_says log (looks a eq') (inserts a eq' a) (EArrMap_api (U:=U) zero fuel sum64 keq KeyBytes).
Proof.
  constructor; intros; simpl.
  - apply s_einsert; intros; first [by apply arr_start | by apply arr_next | by apply arr_conf | by apply arr_eq | by apply k_kv_key | by apply q_split].
  - apply s_einsert; intros; first [by apply arr_start | by apply arr_next | by apply arr_conf | by apply arr_eq | by apply k_kv_key | by apply q_mod].
  - apply s_edelete; intros; first [by apply arr_start | by apply arr_next | by apply arr_conf | by apply arr_eq | by apply k_kv_key].
  - apply s_eget; intros; first [by apply arr_start | by apply arr_next | by apply arr_conf | by apply arr_eq | by apply k_kv_key].
  - apply s_eval; intros; first [by apply arr_start | by apply arr_next | by apply arr_conf | by apply arr_eq | by apply k_kv_key].
  - apply s_eptr; intros; first [by apply arr_start | by apply arr_next | by apply arr_conf | by apply arr_eq | by apply k_kv_key].
  - by apply k_all_map.
Qed.
Lemma arr_says_set : seti_says log (looks a eq') (inserts a eq' a) (EArrSet_api (U:=U) fuel sum64 keq KeyBytes).
Proof.
  constructor; intros; simpl.
  - apply s_einsert; intros; first [by apply arr_start | by apply arr_next | by apply arr_conf | by apply arr_eq | by apply k_kv_key | by apply q_add].
  - apply s_edelete; intros; first [by apply arr_start | by apply arr_next | by apply arr_conf | by apply arr_eq | by apply k_kv_key].
  - apply s_ehas; intros; first [by apply arr_start | by apply arr_next | by apply arr_conf | by apply arr_eq | by apply k_kv_key].
  - by apply k_all_set.
Qed.
End arr.

(** Equal, with a log that does not see Hash. *)
Section gen.
Context (Equal : K -> K -> C -> C * option bool) (Hash : K -> N -> N -> C -> C * option N).
Hypothesis He : ∀ k k' c, log (Equal k k' c).1 = log c ++ eq k k'.
Hypothesis Hh : ∀ k s i c, log (Hash k s i c).1 = log c.
Local Notation no := (λ _ : K, [] : list X).
Lemma gen_hash {V'} k s i : says (V:=V') (CK:=K) (U:=U) log (λ l, l = []) (meth (Hash k s i)).
Proof. apply s_meth. intros c. by rewrite Hh, app_nil_r. Qed.
Lemma gen_start {V'} b s k : says log (λ l, l = no k) (e_start (gen_efam (V:=V') (U:=U) Equal Hash b) s k).
Proof. simpl. apply s_post; [by apply gen_hash|done]. Qed.
Lemma gen_next {V'} b s k d h : says log (λ l, l = []) (e_next (gen_efam (V:=V') (U:=U) Equal Hash b) s k d h).
Proof. simpl. apply s_post; [by apply gen_hash|done]. Qed.
Lemma gen_conf {V'} b n s k ck d : says log (λ l, l = no ck) (e_conf (gen_efam (V:=V') (U:=U) Equal Hash b) n s k ck d).
Proof. simpl. apply s_post; [by apply gen_hash|done]. Qed.
Lemma gen_eq {V'} b k ck : says log (λ l, l = eq k ck) (e_eq (gen_efam (V:=V') (U:=U) Equal Hash b) k ck).
Proof. by apply s_meth. Qed.
Lemma gen_says : mapi_says log (looks no eq) (inserts no eq no) (EMap_api (U:=U) zero fuel Equal Hash).
Proof.
  constructor; intros; simpl.
  - apply s_einsert; intros; first [by apply gen_start | by apply gen_next | by apply gen_conf | by apply gen_eq | by apply k_kv_key | by apply q_set].
  - apply s_einsert; intros; first [by apply gen_start | by apply gen_next | by apply gen_conf | by apply gen_eq | by apply k_kv_key | by apply q_mod].
  - apply s_edelete; intros; first [by apply gen_start | by apply gen_next | by apply gen_conf | by apply gen_eq | by apply k_kv_key].
  - apply s_eget; intros; first [by apply gen_start | by apply gen_next | by apply gen_conf | by apply gen_eq | by apply k_kv_key].
  - apply s_eval; intros; first [by apply gen_start | by apply gen_next | by apply gen_conf | by apply gen_eq | by apply k_kv_key].
  - apply s_eptr; intros; first [by apply gen_start | by apply gen_next | by apply gen_conf | by apply gen_eq | by apply k_kv_key].
  - by apply k_all_map.
Qed.
Lemma gen_says_set : seti_says log (looks no eq) (inserts no eq no) (ESet_api (U:=U) fuel Equal Hash).
Proof.
  constructor; intros; simpl.
  - apply s_einsert; intros; first [by apply gen_start | by apply gen_next | by apply gen_conf | by apply gen_eq | by apply k_kv_key | by apply q_add].
  - apply s_edelete; intros; first [by apply gen_start | by apply gen_next | by apply gen_conf | by apply gen_eq | by apply k_kv_key].
  - apply s_ehas; intros; first [by apply gen_start | by apply gen_next | by apply gen_conf | by apply gen_eq | by apply k_kv_key].
  - by apply k_all_set.
Qed.
End gen.
End types.
