(** Which operations write to the scratch paths: only Del does, and only to the one
    of its own container. In every state, for every hash function and comparison
    of keys. Used for C29. *)
From stdpp Require Import base numbers list gmap.
From Verif Require Import GoInt Mem Hash Amt Families Steps Rep Spec Client Types.
Local Open Scope nat_scope.

Section pk.
Context {V CK U : Type}.
Local Notation M := (M V CK U).
Local Notation world := (world V CK U).

(** c keeps the seeds of all containers and the scratch paths of those in S. *)
Definition kept (S : loc -> Prop) (w w' : world) : Prop :=
  w_ok w' /\ ∀ h rt, w_mem w !! h = Some (BRoot rt) ->
    ∃ rt', w_mem w' !! h = Some (BRoot rt') /\ rt_seed rt' = rt_seed rt /\ (S h -> rt_path rt' = rt_path rt).
Definition pk (S : loc -> Prop) {A} (c : M A) : Prop := ∀ w, w_ok w ->
  match c w with Ret _ w' | Panic w' => kept S w w' | _ => True end.

Context {S : loc -> Prop}.
Lemma kept_refl w : w_ok w -> kept S w w.
Proof. intros Hw. split; [done|]. intros h rt Hr. by exists rt. Qed.
Lemma kept_trans w1 w2 w3 : kept S w1 w2 -> kept S w2 w3 -> kept S w1 w3.
Proof.
  intros [_ H12] [H3 H23]. split; [done|]. intros h rt Hr.
  destruct (H12 h rt Hr) as (rt2 & Hr2 & S2 & E2). destruct (H23 h rt2 Hr2) as (rt3 & Hr3 & S3 & E3).
  exists rt3. split_and!; [done|congruence|]. intros Hs. rewrite E3 by done. by apply E2.
Qed.
Lemma pk_ret {A} (a : A) : pk S (ret a).
Proof. intros w Hw. by apply kept_refl. Qed.
Lemma pk_panic {A} : pk S (A:=A) panic.
Proof. intros w Hw. by apply kept_refl. Qed.
Lemma pk_hang {A} : pk S (A:=A) hang.
Proof. done. Qed.
Lemma pk_bind {A B} (c : M A) (f : A -> M B) : pk S c -> (∀ a, pk S (f a)) -> pk S (bind c f).
Proof.
  intros Hc Hf w Hw. specialize (Hc w Hw). unfold bind. destruct (c w) as [a w1|w1| |]; try done.
  specialize (Hf a w1 (proj1 Hc)). destruct (f a w1); try done; by eapply kept_trans.
Qed.
Lemma pk_load_root r : pk S (load_root r).
Proof. intros w Hw. unfold load_root. destruct (w_mem w !! r) as [[]|]; try done. by apply kept_refl. Qed.
Lemma pk_load_link l : pk S (load_link l).
Proof.
  intros w Hw. unfold load_link. destruct l as [r|a i|]; [| |done].
  - destruct (w_mem w !! r) as [[]|]; try done. by apply kept_refl.
  - destruct (w_mem w !! a) as [[]|]; try done. destruct (_ !! i); [|done]. by apply kept_refl.
Qed.
Lemma pk_load_kv p : pk S (load_kv p).
Proof.
  intros w Hw. unfold load_kv. destruct p as [|a]; [by apply kept_refl|].
  destruct (w_mem w !! a) as [[]|]; try done. by apply kept_refl.
Qed.
Lemma pk_alloc b : pk S (alloc b).
Proof.
  intros w Hw. unfold alloc. split.
  - intros l b' Hl. simpl in *. apply lookup_insert_Some in Hl as [[<- _]|[_ Hl]]; [lia|]. apply Hw in Hl. lia.
  - intros h rt Hr. exists rt. split; [|done]. simpl. rewrite lookup_insert_ne; [done|].
    intros <-. apply Hw in Hr. lia.
Qed.
Lemma kept_put w h b b' : w_ok w -> w_mem w !! h = Some b ->
  (∀ rt, b = BRoot rt -> ∃ rt', b' = BRoot rt' /\ rt_seed rt' = rt_seed rt /\ (S h -> rt_path rt' = rt_path rt)) ->
  kept S w (set_mem w (<[h := b']> (w_mem w))).
Proof.
  intros Hw Hb Hx. split.
  - intros l x Hl. simpl in *. apply lookup_insert_Some in Hl as [[<- _]|[_ Hl]]; by eapply Hw.
  - intros h' rt Hr. simpl. destruct (decide (h = h')) as [<-|Hne].
    + rewrite Hb in Hr. injection Hr as ->. destruct (Hx rt eq_refl) as (rt' & -> & Hp).
      exists rt'. split; [apply lookup_insert|done].
    + rewrite lookup_insert_ne by done. by exists rt.
Qed.
Lemma pk_upd_root r f : (∀ rt, rt_seed (f rt) = rt_seed rt /\ rt_path (f rt) = rt_path rt) -> pk S (upd_root r f).
Proof.
  intros Hf w Hw. unfold upd_root. destruct (w_mem w !! r) as [[| |rt]|] eqn:E; try done.
  eapply kept_put; [done|exact E|]. intros rt' [= ->]. destruct (Hf rt'). by eexists.
Qed.
Lemma pk_upd_other r f : (∀ rt, rt_seed (f rt) = rt_seed rt) -> ¬ S r -> pk S (upd_root r f).
Proof.
  intros Hsd Hf w Hw. unfold upd_root. destruct (w_mem w !! r) as [[| |rt]|] eqn:E; try done.
  eapply kept_put; [done|exact E|]. intros rt' [= ->]. by eexists.
Qed.
Lemma pk_store_link l x : pk S (store_link l x).
Proof.
  intros w Hw. unfold store_link. destruct l as [r|a i|]; [| |done].
  - destruct (w_mem w !! r) as [[| |rt]|] eqn:E; try done. eapply kept_put; [done|exact E|].
    intros rt' [= ->]. by eexists.
  - destruct (w_mem w !! a) as [[ls| |]|] eqn:E; try done. destruct (ls !! i); [|done].
    eapply kept_put; [done|exact E|]. done.
Qed.
Lemma pk_store_val p v : pk S (store_val p v).
Proof.
  intros w Hw. unfold store_val. destruct p as [|a]; [by apply kept_refl|].
  destruct (w_mem w !! a) as [[]|] eqn:E; try done. eapply kept_put; [done|exact E|]. done.
Qed.
Lemma pk_get_usr : pk S get_usr.
Proof. intros w Hw. by apply kept_refl. Qed.
Lemma pk_put_usr u : pk S (put_usr u).
Proof. intros w Hw. split; [done|]. intros h rt Hr. by exists rt. Qed.
Lemma pk_upd_link l f : pk S (upd_link l f).
Proof. apply pk_bind; [apply pk_load_link|]. intros x. apply pk_store_link. Qed.
Lemma pk_new_link_array n : pk S (new_link_array n).
Proof. apply pk_bind; intros; first [apply pk_alloc|apply pk_ret]. Qed.
End pk.

Ltac pk := repeat match goal with
  | |- pk _ (bind _ _) => apply pk_bind; [|intros ?]
  | |- pk _ (ret _) => apply pk_ret
  | |- pk _ panic => apply pk_panic
  | |- pk _ hang => apply pk_hang
  | |- pk _ (load_root _) => apply pk_load_root
  | |- pk _ (load_link _) => apply pk_load_link
  | |- pk _ (load_kv _) => apply pk_load_kv
  | |- pk _ (alloc _) => apply pk_alloc
  | |- pk _ (store_link _ _) => apply pk_store_link
  | |- pk _ (store_val _ _) => apply pk_store_val
  | |- pk _ get_usr => apply pk_get_usr
  | |- pk _ (put_usr _) => apply pk_put_usr
  | |- pk _ (upd_link _ _) => apply pk_upd_link
  | |- pk _ (new_link_array _) => apply pk_new_link_array
  | |- pk _ (upd_root _ _) => apply pk_upd_root; done
  end.

Section ops.
Context {K HS V CK U : Type}.
Local Notation M := (M V CK U).
Variable F : fam K HS V CK U.
Context {S : loc -> Prop}.
Hypothesis Hkey : ∀ iv, pk S (f_key F iv).
Hypothesis Hnew : ∀ v k, pk S (f_new F v k).
Implicit Types (k : K).

Lemma pk_descend {A} (visit : A -> N -> lref -> M A) (Hv : ∀ a r l, pk S (visit a r l)) fuel seed k :
  ∀ hs l d a, pk S (descend F visit fuel seed k hs l d a).
Proof.
  induction fuel as [|fuel IH]; intros hs l d a; simpl; pk. destruct (_ =? 0)%N; pk; [apply Hv|].
  destruct (_ =? 0)%N; [apply IH|pk].
Qed.
Lemma pk_find fuel h k : pk S (find F fuel h k).
Proof.
  destruct h as [r|]; simpl; pk; [apply pk_descend; intros; apply pk_ret|]. destruct a0; pk. apply Hkey.
Qed.
Lemma pk_ptr_of fuel h k : pk S (ptr_of F fuel h k).
Proof. unfold ptr_of. pk; [apply pk_find|]. destruct a as [iv|]; pk. destruct (lk_ptr iv); pk. Qed.
Lemma pk_get fuel zero h k : pk S (get F fuel zero h k).
Proof. unfold get. pk; [apply pk_ptr_of|]. destruct a; pk. Qed.
Lemma pk_val fuel zero h k : pk S (val F fuel zero h k).
Proof. unfold val. destruct h; pk; [apply pk_ptr_of|]. destruct a; pk. Qed.
Lemma pk_has fuel h k : pk S (has F fuel h k).
Proof. unfold has. pk. apply pk_find. Qed.
Lemma pk_shift_up p idx n : pk S (V:=V) (CK:=CK) (U:=U) (shift_up p idx n).
Proof. induction n; simpl; unfold load_at, store_at; pk. done. Qed.
Lemma pk_copy_range src dst soff doff n : ∀ start, pk S (V:=V) (CK:=CK) (U:=U) (copy_range src dst soff doff start n).
Proof. induction n; intros start; simpl; unfold load_at, store_at; pk. done. Qed.
Lemma pk_count_in r n : pk S (V:=V) (CK:=CK) (U:=U) (count_in r n).
Proof. unfold count_in. pk. Qed.

Section insert.
Variable op : insop V CK U.
Hypothesis Hfound : ∀ iv, pk S (io_found op iv).
Hypothesis Hionew : pk S (io_new op).
Hypothesis Hiosplit : pk S (io_split op).
Lemma pk_split fuel r seed k ck cp : ∀ h ch item d, pk S (split F op fuel r seed k ck cp h ch item d).
Proof.
  induction fuel as [|fuel IH]; intros h ch item d; cbn [split]; pk. destruct (negb _); pk; try done.
  - destruct (_ <? _)%N; pk.
  - apply pk_count_in.
Qed.
Lemma pk_add_item r k h d l idx : pk S (add_item F op r k h d l idx).
Proof.
  unfold add_item. apply pk_bind.
  { destruct (io_early op); pk. done. }
  intros early. pk. 
  - destruct (_ || _); pk; try apply pk_shift_up; try apply pk_copy_range; unfold store_at; try apply pk_store_link;
      destruct early; try done; apply pk_ret.
  - apply pk_count_in.
Qed.
Lemma pk_insert fuel h k : pk S (insert F op fuel h k).
Proof.
  destruct h as [r|]; simpl; pk; [apply pk_descend; intros; apply pk_ret|]. destruct a0; pk.
  - apply pk_add_item.
  - unfold add_present. pk; [apply Hkey|]. destruct (f_eq _ _ _); [apply Hfound|].
    destruct (f_conf _ _ _ _ _ _) as [ch|]; [|apply pk_hang]. destruct (_ && _); pk; [done|]. apply pk_split.
Qed.
End insert.

Lemma pk_path_push r p radix l : ¬ S r -> pk S (V:=V) (CK:=CK) (U:=U) (path_push r p radix l).
Proof. intros Hr. destruct p; simpl; pk. destruct (_ <? _)%nat; pk. by apply pk_upd_other. Qed.
Lemma pk_path_get r p i : pk S (V:=V) (CK:=CK) (U:=U) (path_get r p i).
Proof. destruct p; simpl; pk; [destruct (_ <? _)%nat; [destruct (_ !! _)|]; pk|destruct (_ !! _); pk]. Qed.
Lemma pk_path_clear r p i : ¬ S r -> pk S (V:=V) (CK:=CK) (U:=U) (path_clear r p i).
Proof. intros Hr. unfold path_clear. pk; [apply pk_path_get|]. destruct p; pk. by apply pk_upd_other. Qed.
Lemma pk_path_pop r p i : ¬ S r -> pk S (V:=V) (CK:=CK) (U:=U) (path_pop r p i).
Proof. intros Hr. unfold path_pop. pk; [apply pk_path_get|by apply pk_path_clear|]. destruct (pl_link a); pk. Qed.
Lemma pk_unlink r fuel : ¬ S r -> ∀ p l idx d n, pk S (V:=V) (CK:=CK) (U:=U) (unlink fuel r p l idx d n).
Proof.
  intros Hr. induction fuel as [|fuel IH]; intros p l idx d n; cbn [unlink]; pk. destruct (_ && _); pk; [by apply pk_path_pop|].
  match goal with x : (_ * _ * _)%type |- _ => destruct x as [[??]?] end. pk. apply IH.
Qed.
Lemma pk_collapse r fuel : ¬ S r -> ∀ p l d n, pk S (V:=V) (CK:=CK) (U:=U) (collapse fuel r p l d n).
Proof.
  intros Hr. induction fuel as [|fuel IH]; intros p l d n; cbn [collapse]; pk. destruct (_ && _); pk; [by apply pk_path_pop|].
  match goal with x : (_ * _ * _)%type |- _ => destruct x as [[??]?] end. pk. apply IH.
Qed.
Lemma pk_clear_path r fuel : ¬ S r -> ∀ p d, pk S (V:=V) (CK:=CK) (U:=U) (clear_path fuel r p d).
Proof.
  intros Hr. induction fuel as [|fuel IH]; intros p d; cbn [clear_path]; pk. destruct (_ =? _)%N; pk; [by apply pk_path_clear|]. apply IH.
Qed.
Lemma pk_delete_gen miss fuel r k : ¬ S r -> pk S (delete_gen F miss fuel (Some r) k).
Proof.
  intros Hr. simpl. pk; [by apply pk_descend; intros; apply pk_path_push|]. destruct a0; pk; [apply Hkey|].
  destruct (miss _); pk. unfold remove. pk; [by apply pk_path_clear|by apply pk_unlink|].
  match goal with x : (_ * _ * _ * _ * _)%type |- _ => destruct x as [[[[??]?]?]?] end. pk; [destruct (_ && _); pk|..]; try apply pk_copy_range.
  - by apply pk_collapse.
  - by apply pk_clear_path.
Qed.

Lemma pk_scan_items (rec : lref -> M bool) (act : link -> M bool) l tmap :
  (∀ x, pk S (rec x)) -> (∀ x, pk S (act x)) -> ∀ n i pmap, pk S (scan_items rec act l tmap n i pmap).
Proof.
  intros Hrec Hact. induction n as [|n IH]; intros i pmap; cbn [scan_items]; pk.
  - destruct (negb _); pk; done.
  - destruct a0; pk. apply IH.
Qed.
Lemma pk_scan (act : link -> M bool) fuel : (∀ x, pk S (act x)) -> ∀ l, pk S (scan act fuel l).
Proof. intros Hact. induction fuel as [|fuel IH]; intros l; simpl; pk. by apply pk_scan_items. Qed.
Lemma pk_all_map fuel h (f : K -> ptr -> M bool) : (∀ k p, pk S (f k p)) -> pk S (all_map F fuel h f).
Proof.
  intros Hf. unfold all_map. destruct h; pk. apply pk_scan. intros iv. unfold act_map. pk; [apply Hkey|].
  destruct (lk_ptr iv); pk. apply Hf.
Qed.
Lemma pk_all_set fuel h (f : K -> M bool) : (∀ k, pk S (f k)) -> pk S (all_set F fuel h f).
Proof.
  intros Hf. unfold all_set. destruct h; pk. apply pk_scan. intros iv. unfold act_set. pk; [apply Hkey|]. apply Hf.
Qed.
End ops.

Section misc.
Context {V CK U : Type} {S : loc -> Prop}.
Lemma pk_New s : pk S (New (V:=V) (CK:=CK) (U:=U) s).
Proof. unfold New, new_root. pk. Qed.
Lemma pk_Len  h : pk S (Len (V:=V) (CK:=CK) (U:=U) h).
Proof. destruct h; unfold Len, root_len; pk. Qed.
Lemma pk_Dep  h : pk S (Dep (V:=V) (CK:=CK) (U:=U) h).
Proof. destruct h; unfold Dep, root_dep; pk. destruct (_ =? _)%N; pk. Qed.
Lemma pk_handle  h : pk S (handle (V:=V) (CK:=CK) (U:=U) h).
Proof. destruct h; simpl; pk. Qed.

Lemma pk_set_cb {K} f k : pk S (set_cb (K:=K) (V:=V) (CK:=CK) (U:=U) f k).
Proof. unfold set_cb. pk. Qed.
End misc.

(** ** All types *)
Section any.
Context {V U : Type} (zero : V) (fuel : nat).
Lemma kv_pk {S W K} : (∀ iv, pk S (kv_key (V:=W) (K:=K) (U:=U) iv)) /\ (∀ v k, pk S (kv_new (V:=W) (K:=K) (U:=U) v k)).
Proof. split; intros; [unfold kv_key|unfold kv_new]; pk. Qed.
Lemma int_pk {S W} : (∀ iv, pk S (int_key (V:=W) (U:=U) iv)) /\ (∀ v k, pk S (int_new (V:=W) (U:=U) v k)) /\
  (∀ v k, pk S (intset_new (V:=W) (U:=U) v k)).
Proof. split_and!; intros; [unfold int_key|unfold int_new|unfold intset_new]; pk. Qed.
Lemma pk_mod_new {S K HS CK} (F : fam K HS V CK U) k md : (∀ v k, pk S (f_new F v k)) -> (∀ p b, pk S (md p b)) ->
  pk S (mod_new F zero k md).
Proof. intros Hn Hm. unfold mod_new. pk; [apply Hn|apply Hm]. Qed.
Lemma pk_mod_found {S CK} (md : ptr -> bool -> M V CK U unit) iv : (∀ p b, pk S (md p b)) ->
  pk S (match lk_ptr iv with Nil => panic | At p => md (At p) true end).
Proof. intros Hm. destruct (lk_ptr iv); [apply pk_panic|apply Hm]. Qed.
Lemma pk_mod_cb {S CK} f p b : pk S (mod_cb (V:=V) (CK:=CK) (U:=U) f p b).
Proof. unfold mod_cb. pk. Qed.
Lemma pk_all_cb {S CK K} f k p : pk S (all_cb (K:=K) (V:=V) (CK:=CK) (U:=U) f k p).
Proof. unfold all_cb. pk. Qed.

Lemma any_map_pk {S K CK} (api : mapapi K V CK U) : any_map zero fuel api ->
  (∀ h k v, pk S (ma_Set api h k v)) /\
  (∀ h k md, (∀ p b, pk S (md p b)) -> pk S (ma_Mod api h k md)) /\
  (∀ h k, ¬ S h -> pk S (ma_Del api (Some h) k)) /\
  (∀ h k, pk S (ma_Get api h k)) /\ (∀ h k, pk S (ma_Val api h k)) /\ (∀ h k, pk S (ma_Ptr api h k)) /\
  (∀ h f, (∀ k p, pk S (f k p)) -> pk S (ma_All api h f)).
Proof.
  destruct 1; cbn [StringMap_api BytesMap_api IntMap_api ArrMap_api Map_api ma_Set ma_Mod ma_Del ma_Get ma_Val ma_Ptr ma_All];
  (split_and!; intros;
    [apply pk_insert; intros; cbn [with_check with_split set_op io_found io_new io_split f_new f_key]; 
       first [apply kv_pk|apply int_pk|apply pk_store_val]
    |apply pk_insert; intros; cbn [with_check mod_op io_found io_new io_split f_key];
       first [apply kv_pk|apply int_pk|by apply pk_mod_found|apply pk_mod_new; [intros; first [apply kv_pk|apply int_pk]|done]]
    |apply pk_delete_gen; [intros; first [apply kv_pk|apply int_pk]|done]
    |apply pk_get; intros; first [apply kv_pk|apply int_pk]
    |apply pk_val; intros; first [apply kv_pk|apply int_pk]
    |apply pk_ptr_of; intros; first [apply kv_pk|apply int_pk]
    |apply pk_all_map; [intros; first [apply kv_pk|apply int_pk]|done]]).
Qed.

Lemma any_set_pk {S K CK} b (api : setapi K unit CK U) : any_set fuel b api ->
  (∀ h k, pk S (sa_Add api h k)) /\
  (∀ h k, ¬ S h -> pk S (sa_Del api (Some h) k)) /\
  (∀ h k, pk S (sa_Has api h k)) /\
  (∀ h f, (∀ k, pk S (f k)) -> pk S (sa_All api h f)).
Proof.
  destruct 1; cbn [StringSet_api BytesSet_api IntSet_api ArrSet_api Set_api sa_Add sa_Del sa_Has sa_All];
  (split_and!; intros;
    [apply pk_insert; intros; cbn [add_op io_found io_new io_split f_new f_key]; 
       first [apply kv_pk|apply int_pk|apply pk_ret]
    |apply pk_delete_gen; [intros; first [apply kv_pk|apply int_pk]|done]
    |apply pk_has; intros; first [apply kv_pk|apply int_pk]
    |apply pk_all_set; [intros; first [apply kv_pk|apply int_pk]|done]]).
Qed.

(** The container whose scratch path a call may write to. *)
Lemma mcall_pk {S K CK} (api : mapapi K V CK U) op : any_map zero fuel api ->
  (∀ h k, op = MDel h k -> ¬ S h) -> pk S (mcall api op).
Proof.
  intros Ha Hop. destruct (any_map_pk (S:=S) api Ha) as (HSet & HMod & HDel & HGet & HVal & HPtr & HAll).
  destruct op; cbn [mcall]; pk; first [done|apply pk_New|apply pk_handle|apply pk_Len|apply pk_Dep|idtac].
  - apply HMod. intros. apply pk_mod_cb.
  - apply HDel. by eapply Hop.
  - apply HAll. intros. apply pk_all_cb.
Qed.
Lemma scall_pk {S K CK} b (api : setapi K unit CK U) op : any_set fuel b api ->
  (∀ h k, op = SDel h k -> ¬ S h) -> pk S (scall api op).
Proof.
  intros Ha Hop. destruct (any_set_pk (S:=S) b api Ha) as (HAdd & HDel & HHas & HAll).
  destruct op; cbn [scall]; pk; first [done|apply pk_New|apply pk_handle|apply pk_Len|apply pk_Dep|idtac].
  - apply HDel. by eapply Hop.
  - apply HAll. intros. apply pk_set_cb.
Qed.
End any.
