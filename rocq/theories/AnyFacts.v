(** The facts of ReadOps.v for every map and set type (Types.v). *)
From stdpp Require Import base numbers list gmap relations.
From Verif Require Import GoInt Mem Hash Amt Families Steps Spec Client Types Readers ReadOps.
Local Open Scope nat_scope.

Ltac keyr := intros; first [apply kv_key_reader | apply int_key_reader].
Ltac keyq := intros; first [apply kv_key_quiet | apply int_key_quiet].
Ltac keyp := intros; first [by eapply kv_key_path | by eapply int_key_path].

Section ptrs.
Context {K HS V CK U : Type} (F F' : fam K HS V CK U).
Hypothesis Hkey : ∀ iv, quiet (f_key F iv).
Hypothesis Hkeyp : ∀ r w w' iv k w1, path_only r w w' -> f_key F iv w = Ret k w1 -> f_key F iv w' = Ret k w'.
Hypothesis Hag : f_start F' = f_start F /\ f_next F' = f_next F /\ f_key F' = f_key F /\ f_eq F' = f_eq F.
Lemma ptr_found fuel h k w p w1 op : ptr_of F fuel h k w = Ret (At p) w1 ->
  w1 = w /\ ∃ iv, lk_ptr iv = At p /\ insert F' op fuel h k w = io_found op iv w.
Proof using Hkey Hag.
  intros Hp. assert (w1 = w) as -> by (eapply quiet_Ret; [apply (ptr_of_quiet F Hkey)|done]). split; [done|].
  revert Hp. unfold ptr_of, bind at 1. destruct (find F fuel h k w) as [[iv|] w1| | |] eqn:Hf; try done.
  destruct (insert_found F Hkey F' Hag op fuel h k w iv w1 Hf) as [-> Hi].
  destruct (lk_ptr iv) as [|p'] eqn:Hl; [done|]. intros [= ->]. by exists iv.
Qed.
Lemma ptr_absent fuel h k w w1 : ptr_of F fuel (Some h) k w = Ret Nil w1 ->
  w1 = w /\ ∃ w2, delete F fuel (Some h) k w = Ret tt w2 /\ path_only h w w2.
Proof using Hkey Hkeyp.
  intros Hp. assert (w1 = w) as -> by (eapply quiet_Ret; [apply (ptr_of_quiet F Hkey)|done]). split; [done|].
  revert Hp. unfold ptr_of, bind at 1. destruct (find F fuel (Some h) k w) as [[iv|] w1| | |] eqn:Hf; try done.
  - by destruct (lk_ptr iv).
  - intros _. by eapply delete_absent.
Qed.
Lemma has_found fuel h k w w1 op : has F fuel h k w = Ret true w1 ->
  w1 = w /\ ∃ iv, insert F' op fuel h k w = io_found op iv w.
Proof using Hkey Hag.
  intros Hp. assert (w1 = w) as -> by (eapply quiet_Ret; [apply (has_quiet F Hkey)|done]). split; [done|].
  revert Hp. unfold has, bind at 1. destruct (find F fuel h k w) as [[iv|] w1| | |] eqn:Hf; try done.
  destruct (insert_found F Hkey F' Hag op fuel h k w iv w1 Hf) as [-> Hi]. intros _. by exists iv.
Qed.
Lemma has_absent fuel h k w w1 : has F fuel (Some h) k w = Ret false w1 ->
  w1 = w /\ ∃ w2, delete F fuel (Some h) k w = Ret tt w2 /\ path_only h w w2.
Proof using Hkey Hkeyp.
  intros Hp. assert (w1 = w) as -> by (eapply quiet_Ret; [apply (has_quiet F Hkey)|done]). split; [done|].
  revert Hp. unfold has, bind at 1. destruct (find F fuel (Some h) k w) as [[iv|] w1| | |] eqn:Hf; try done.
  intros _. by eapply delete_absent.
Qed.
Lemma ptr_insert fuel h k w p w1 op (X : outcome V CK U unit) : ptr_of F fuel h k w = Ret (At p) w1 ->
  (∀ iv, lk_ptr iv = At p -> io_found op iv w = X) -> w1 = w /\ insert F' op fuel h k w = X.
Proof using Hkey Hag.
  intros Hp HX. destruct (ptr_found fuel h k w p w1 op Hp) as (-> & iv & Hiv & ->). split; [done|]. by apply HX.
Qed.
Lemma has_insert fuel h k w w1 op (X : outcome V CK U unit) : has F fuel h k w = Ret true w1 ->
  (∀ iv, io_found op iv w = X) -> w1 = w /\ insert F' op fuel h k w = X.
Proof using Hkey Hag.
  intros Hp HX. destruct (has_found fuel h k w w1 op Hp) as (-> & iv & ->). split; [done|]. by apply HX.
Qed.
End ptrs.

Section maps.
Context {K V CK U : Type} (zero : V) (fuel : nat) (api : mapapi K V CK U).
Hypothesis Ht : any_map zero fuel api.

Lemma any_Ptr_Set h k p w w1 v : ma_Ptr api h k w = Ret (At p) w1 -> w1 = w /\ ma_Set api h k v w = store_val (At p) v w.
Proof.
  destruct Ht; simpl; intros Hp;
    (eapply ptr_insert; [| |exact Hp|]; [keyq|split_and!; reflexivity|]); intros iv Hiv; simpl; by rewrite Hiv.
Qed.
Lemma any_Ptr_Mod h k p w w1 f : ma_Ptr api h k w = Ret (At p) w1 -> w1 = w /\ ma_Mod api h k f w = f (At p) true w.
Proof.
  destruct Ht; simpl; intros Hp;
    (eapply ptr_insert; [| |exact Hp|]; [keyq|split_and!; reflexivity|]); intros iv Hiv; simpl; by rewrite Hiv.
Qed.
Lemma any_Ptr_Del h k w w1 : ma_Ptr api (Some h) k w = Ret Nil w1 ->
  w1 = w /\ ∃ w2, ma_Del api (Some h) k w = Ret tt w2 /\ path_only h w w2.
Proof. destruct Ht; simpl; intros Hp; (eapply ptr_absent; [keyq|keyp|exact Hp]). Qed.

Lemma any_reads_quiet op : reads op -> quiet (mcall api op).
Proof.
  destruct Ht, op; intros Hr; simpl in Hr; try done; cbn [mcall scall];
    (apply bind_quiet; [|done]);
    first [by apply get_quiet; keyq|by apply val_quiet; keyq|by apply ptr_of_quiet; keyq|apply len_quiet|apply dep_quiet|apply load_kv_quiet].
Qed.
Lemma any_reads_thread op : reads op -> ∃ t, ∀ w, mcall api op w = alone t w.
Proof.
  intros Hr. enough (inhabited (reader (mcall api op))) as [[t Hx]] by (by exists t).
  destruct Ht, op; simpl in Hr; try done; constructor; cbn [mcall scall];
    (apply bind_reader; [|intros; apply ret_reader]);
    first [by apply get_reader; keyr|by apply val_reader; keyr|by apply ptr_of_reader; keyr|apply len_reader|apply dep_reader|apply load_kv_reader].
Qed.
Lemma any_All_thread h do : (∀ k p, reader (do k p)) -> ∃ t, ∀ w, ma_All api h do w = alone t w.
Proof.
  intros Hdo. enough (inhabited (reader (ma_All api h do))) as [[t Hx]] by (by exists t).
  destruct Ht; constructor; apply all_map_reader; try keyr; apply Hdo.
Qed.
End maps.

(** A callback for All that leaves the values alone can be written without a store. *)
Section look.
Context {K V CK U : Type}.
Definition look_cb (f : U -> K -> V -> U * V * bool) (k : K) (p : ptr) : M V CK U bool :=
  x <- load_kv p ;;
  u <- get_usr ;;
  put_usr (f u k x.1).1.1 ;;;
  ret (f u k x.1).2.
Lemma look_all_cb f k p w : (∀ u k v, (f u k v).1.2 = v) -> all_cb f k p w = look_cb f k p w.
Proof.
  intros Hf. unfold all_cb, look_cb, bind, load_kv, store_val. destruct p as [|a]; [done|].
  destruct (w_mem w !! a) as [[]|] eqn:He; try done. simpl. rewrite He. simpl. rewrite Hf, insert_id by done. by destruct w.
Qed.
Lemma look_cb_reader f k p : reader (look_cb f k p).
Proof.
  apply bind_reader; [apply load_kv_reader|]. intros x. apply bind_reader; [apply get_usr_reader|]. intros u.
  apply bind_reader; [apply put_usr_reader|]. intros _. apply ret_reader.
Defined.
Lemma scan_items_ext (rec rec' : lref -> M V CK U bool) act act' l tmap :
  (∀ x w, rec x w = rec' x w) -> (∀ x w, act x w = act' x w) ->
  ∀ n i pmap w, scan_items rec act l tmap n i pmap w = scan_items rec' act' l tmap n i pmap w.
Proof.
  intros Hrec Hact. induction n as [|n IH]; intros i pmap w; simpl; [done|].
  apply bind_ext. intros lv w1. unfold bind at 1 3.
  assert (∀ w, (if negb (N.land tmap (shl32 1 (trailing_zeros32 pmap)) =? 0)%N
     then iv <- load_link (elem (lk_ptr lv) i);; act iv else rec (elem (lk_ptr lv) i)) w =
    (if negb (N.land tmap (shl32 1 (trailing_zeros32 pmap)) =? 0)%N
     then iv <- load_link (elem (lk_ptr lv) i);; act' iv else rec' (elem (lk_ptr lv) i)) w) as ->.
  { intros w'. destruct (negb _); [|apply Hrec]. apply bind_ext. intros iv w2. apply Hact. }
  by destruct (_ w1) as [[] w2| | |].
Qed.
Lemma scan_ext act act' fuel : (∀ x w, act x w = act' x w) ->
  ∀ l w, scan (V:=V) (CK:=CK) (U:=U) act fuel l w = scan act' fuel l w.
Proof.
  intros Hact. induction fuel as [|fuel IH]; intros l w; simpl; [done|].
  apply bind_ext. intros lv w1. by apply scan_items_ext.
Qed.
Lemma all_map_ext {HS} (F : fam K HS V CK U) fuel h do do' w : (∀ k p w, do k p w = do' k p w) ->
  all_map F fuel h do w = all_map F fuel h do' w.
Proof.
  intros Hdo. destruct h as [r|]; [|done]. unfold all_map, bind.
  rewrite (scan_ext (act_map F do) (act_map F do')); [done|]. intros x w1. unfold act_map. apply bind_ext. intros k w2.
  destruct (lk_ptr x); [done|apply Hdo].
Qed.
End look.

(** The calls of a map that do not write: reads, and iterations that leave the values alone. *)
Definition looks {K V U} (op : mop K V U) : Prop :=
  match op with MAll _ f => ∀ u k v, (f u k v).1.2 = v | _ => reads op end.
Definition slooks {K U} (op : sop K U) : Prop :=
  match op with SAll _ _ => True | _ => sreads op end.

Section looks.
Context {K V CK U : Type} (zero : V) (fuel : nat) (api : mapapi K V CK U).
Hypothesis Ht : any_map zero fuel api.
Lemma any_looks_thread op : looks op -> ∃ t, ∀ w, mcall api op w = alone t w.
Proof.
  intros Hl. assert (reads op \/ ∃ h f, op = MAll h f /\ ∀ u k v, (f u k v).1.2 = v) as [Hr|(h & f & -> & Hf)].
  { destruct op; try (by left). right. eauto. }
  - by eapply any_reads_thread.
  - destruct (any_All_thread zero fuel api Ht (Some h) (look_cb f)) as [t Htt]; [intros; apply look_cb_reader|].
    exists (tbind t (λ _, TDone (RRet RUnit))). intros w. rewrite tbind_alone. simpl. unfold bind at 1 2.
    rewrite <-Htt. assert (ma_All api (Some h) (all_cb f) w = ma_All api (Some h) (look_cb f) w) as -> by
      (destruct Ht; apply all_map_ext; intros; by apply look_all_cb).
    by destruct (ma_All api (Some h) (look_cb f) w).
Qed.
End looks.

Section sets.
Context {K CK U : Type} (fuel : nat) (b : bool) (api : setapi K unit CK U).
Hypothesis Ht : any_set fuel b api.
Lemma any_Has_Add h k w w1 : sa_Has api h k w = Ret true w1 -> w1 = w /\ sa_Add api h k w = Ret tt w.
Proof.
  destruct Ht; simpl; intros Hp; (eapply has_insert; [| |exact Hp|]; [keyq|split_and!; reflexivity|]); done.
Qed.
Lemma any_Has_Del h k w w1 : b = true -> sa_Has api (Some h) k w = Ret false w1 ->
  w1 = w /\ ∃ w2, sa_Del api (Some h) k w = Ret tt w2 /\ path_only h w w2.
Proof. destruct Ht; simpl; intros Hb Hp; try done; (eapply has_absent; [keyq|keyp|exact Hp]). Qed.
Lemma any_sreads_quiet op : sreads op -> quiet (scall api op).
Proof.
  destruct Ht, op; intros Hr; simpl in Hr; try done; cbn [mcall scall];
    (apply bind_quiet; [|done]); first [by apply has_quiet; keyq|apply len_quiet|apply dep_quiet].
Qed.
Lemma any_sreads_thread op : sreads op -> ∃ t, ∀ w, scall api op w = alone t w.
Proof.
  intros Hr. enough (inhabited (reader (scall api op))) as [[t Hx]] by (by exists t).
  destruct Ht, op; simpl in Hr; try done; constructor; cbn [mcall scall];
    (apply bind_reader; [|intros; apply ret_reader]); first [by apply has_reader; keyr|apply len_reader|apply dep_reader].
Qed.
Lemma any_sAll_thread h do : (∀ k, reader (do k)) -> ∃ t, ∀ w, sa_All api h do w = alone t w.
Proof.
  intros Hdo. enough (inhabited (reader (sa_All api h do))) as [[t Hx]] by (by exists t).
  destruct Ht; constructor; apply all_set_reader; try keyr; apply Hdo.
Qed.
Lemma any_slooks_thread op : slooks op -> ∃ t, ∀ w, scall api op w = alone t w.
Proof.
  intros Hl. assert (sreads op \/ ∃ h f, op = SAll h f) as [Hr|(h & f & ->)].
  { destruct op; try (by left). right. eauto. }
  - by eapply any_sreads_thread.
  - destruct (any_sAll_thread (Some h) (set_cb f)) as [t Htt].
    { intros k. apply bind_reader; [apply get_usr_reader|]. intros u.
      apply bind_reader; [apply put_usr_reader|]. intros _. apply ret_reader. }
    exists (tbind t (λ _, TDone (RRet TUnit))). intros w. rewrite tbind_alone. simpl. unfold bind at 1 2.
    rewrite <-Htt. by destruct (sa_All api (Some h) (set_cb f) w).
Qed.
End sets.

(** ** Pools of readers *)
Section pool.
Context {V CK U A : Type}.
(** All complete executions of the threads ts, which stand for the computations cs
    with own states us. *)
Lemma pool_results m nxt (us : list U) (cs : list (M V CK U A)) (ts : list (thread V CK U A)) ys :
  length us = length cs -> Forall2 (λ c t, ∀ w, c w = alone t w) cs ts ->
  rtc (pstep m) (zip us ts) ys -> (∀ zs, ¬ pstep m ys zs) ->
  Forall2 (λ (uc : U * M V CK U A) y, ∃ o, y.2 = TDone o /\ uc.2 (World m nxt uc.1) = finish o (World m nxt y.1))
    (zip us cs) ys.
Proof.
  intros Hlen Hcs Hr Hn. pose proof (psteps_solo m nxt _ _ Hr) as Hs. apply pool_nf in Hn.
  clear Hr. revert us ys Hlen Hs Hn. induction Hcs as [|c t cs ts Hc Hcs IH]; intros us ys Hlen Hs Hn.
  - destruct us; [|done]. destruct ys; [|done]. constructor.
  - destruct us as [|u us]; [done|]. destruct ys as [|y ys]; [done|]. simpl in Hs. injection Hs as Hs1 Hs2.
    apply Forall_cons in Hn as [Hy Hn]. simpl. constructor.
    + unfold done in Hy. unfold solo in Hs1. simpl in Hs1. destruct y as [u' t']. simpl in *.
      destruct t' as [o| | |]; try done. exists o. split; [done|]. by rewrite Hc, Hs1.
    + apply IH; [by injection Hlen|done|done].
Qed.
(** No execution of a pool of readers is infinite, and every complete one ends
    with the results that the computations have when they run alone. *)
Lemma pool_spec {C} (run : C -> M V CK U A) (cs : list C) : Forall (λ c, ∃ t, ∀ w, run c w = alone t w) cs ->
  ∃ ts, Forall2 (λ c t, ∀ w, run c w = alone t w) cs ts /\
  ∀ m nxt us, length us = length cs ->
    sn (pstep m) (zip us ts) /\
    ∀ ys, rtc (pstep m) (zip us ts) ys -> (∀ zs, ¬ pstep m ys zs) ->
    Forall2 (λ (uc : U * C) y, ∃ o, y.2 = TDone o /\ run uc.2 (World m nxt uc.1) = finish o (World m nxt y.1))
      (zip us cs) ys.
Proof.
  intros Hall. assert (∃ ts, Forall2 (λ c t, ∀ w, run c w = alone t w) cs ts) as [ts Hts].
  { induction Hall as [|c cs [t Ht] Hall [ts IH]]; [by exists []|]. exists (t :: ts). by constructor. }
  exists ts. split; [done|]. intros m nxt us Hlen. split; [apply pool_sn|]. intros ys Hr Hn.
  assert (Forall2 (λ c t, ∀ w, c w = alone t w) (run <$> cs) ts) as Hts' by (by apply Forall2_fmap_l).
  pose proof (pool_results m nxt us (run <$> cs) ts ys (eq_trans Hlen (eq_sym (fmap_length _ _))) Hts' Hr Hn) as Hp.
  clear -Hp. revert cs ys Hp. induction us as [|u us IH]; intros [|c cs] ys Hp; simpl in *; inversion Hp; subst; constructor; eauto.
Qed.
End pool.
