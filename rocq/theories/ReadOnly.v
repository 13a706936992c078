(** Lookups, Len, Dep and iterations whose callback does not write do not write. *)
From stdpp Require Import base numbers list gmap.
From Verif Require Import GoInt Mem Hash Prog PAmt PFam PClient Conc Spec.
Local Open Scope N_scope.

Create HintDb ro.
Section base.
Context {V CK U : Type}.
Lemma ro_ret {A} (a : A) : readonly (ret a : prog V CK U A).
Proof. done. Qed.
Lemma ro_panic {A} : readonly (panic : prog V CK U A).
Proof. done. Qed.
Lemma ro_hang {A} : readonly (hang : prog V CK U A).
Proof. done. Qed.
Lemma ro_load_root r : readonly (load_root r : prog V CK U _).
Proof. by intros []. Qed.
Lemma ro_load_link l : readonly (load_link l : prog V CK U _).
Proof. destruct l; simpl; try done; intros []; simpl; try done. by destruct (_ !! _). Qed.
Lemma ro_load_kv p : readonly (load_kv p : prog V CK U _).
Proof. destruct p; simpl; try done. by intros []. Qed.
Lemma ro_get_usr : readonly (get_usr : prog V CK U _).
Proof. done. Qed.
Lemma ro_put_usr u : readonly (put_usr u : prog V CK U _).
Proof. done. Qed.
End base.
Global Hint Resolve ro_ret ro_panic ro_hang ro_load_root ro_load_link ro_load_kv ro_get_usr ro_put_usr : ro.
Ltac ros := repeat match goal with
  | |- ∀ _, _ => intro
  | |- readonly (bind _ _) => apply readonly_bind
  | |- readonly (if ?b then _ else _) => destruct b
  | |- readonly (match ?x with _ => _ end) => destruct x
  | |- readonly _ => solve [eauto with ro nocore]
  end.

Section ro.
Context {K HS V CK U : Type}.
Context (F : fam K HS V CK U) (Hkey : ∀ l, readonly (f_key F l)).
Hint Resolve Hkey : ro.

Lemma ro_root_len h : readonly (root_len h : prog V CK U _).
Proof. unfold root_len. ros. Qed.
Lemma ro_root_dep h : readonly (root_dep h : prog V CK U _).
Proof. unfold root_dep. ros. Qed.
Lemma ro_descend {A} (v : A -> N -> lref -> prog V CK U A) s k :
  (∀ a n l, readonly (v a n l)) -> ∀ fuel h l d acc, readonly (descend F v fuel s k h l d acc).
Proof.
  intros Hv. induction fuel as [|fuel IH]; intros h l d acc; cbn [descend]; [apply ro_hang|]. ros; apply Hv.
Qed.
Lemma ro_find fuel h k : readonly (find F fuel h k).
Proof. unfold find. ros. apply ro_descend. intros. apply ro_ret. Qed.
Hint Resolve ro_find : ro.
Lemma ro_ptr_of fuel h k : readonly (ptr_of F fuel h k).
Proof. unfold ptr_of. ros. Qed.
Hint Resolve ro_ptr_of : ro.
Lemma ro_get fuel zero h k : readonly (get F fuel zero h k).
Proof. unfold get. ros. Qed.
Lemma ro_val fuel zero h k : readonly (val F fuel zero h k).
Proof. unfold val. ros. Qed.
Lemma ro_has fuel h k : readonly (has F fuel h k).
Proof. unfold has. ros. Qed.
Lemma ro_scan_items rec act l t : (∀ l, readonly (rec l)) -> (∀ l, readonly (act l)) ->
  ∀ n i m, readonly (scan_items (V:=V) (CK:=CK) (U:=U) rec act l t n i m).
Proof. intros Hr Ha. induction n as [|n IH]; intros i m; cbn [scan_items]; ros. Qed.
Lemma ro_scan act : (∀ l, readonly (act l)) -> ∀ fuel l, readonly (scan (V:=V) (CK:=CK) (U:=U) act fuel l).
Proof. intros Ha. induction fuel as [|fuel IH]; intros l; cbn [scan]; [apply ro_hang|]. ros. by apply ro_scan_items. Qed.
Lemma ro_all_map fuel h (f : K -> ptr -> prog V CK U bool) : (∀ k p, readonly (f k p)) -> readonly (all_map F fuel h f).
Proof. intros Hf. unfold all_map. ros. apply ro_scan. intros x. unfold act_map. ros. Qed.
Lemma ro_all_set fuel h (f : K -> prog V CK U bool) : (∀ k, readonly (f k)) -> readonly (all_set F fuel h f).
Proof. intros Hf. unfold all_set. ros. apply ro_scan. intros x. unfold act_set. ros. Qed.
End ro.

(** ** The types *)
Section api.
Context {K V CK U : Type}.
Record mapi_reads (p : pmapapi K V CK U) : Prop := MapiReads {
  mr_Get : ∀ h k, readonly (pm_Get p h k);
  mr_Val : ∀ h k, readonly (pm_Val p h k);
  mr_Ptr : ∀ h k, readonly (pm_Ptr p h k);
  mr_All : ∀ h f, (∀ k q, readonly (f k q)) -> readonly (pm_All p h f) }.
Record sapi_reads (p : psetapi K V CK U) : Prop := SapiReads {
  sr_Has : ∀ h k, readonly (ps_Has p h k);
  sr_All : ∀ h f, (∀ k, readonly (f k)) -> readonly (ps_All p h f) }.

Definition looks (c : cop K V U) : Prop :=
  match c with
  | Op (MGet _ _) | Op (MVal _ _) | Op (MPtr _ _) | Op (MLen _) | Op (MDep _) | Op (MLoad _) | Look _ _ => True
  | _ => False
  end.
Lemma ro_mcall p c : mapi_reads p -> looks c -> readonly (pmcall p c).
Proof.
  intros [H1 H2 H3 H4] Hc. destruct c as [[]|]; simpl in Hc; try done; cbn [pmcall]; ros.
  - unfold Len. apply ro_root_len.
  - unfold Dep. apply ro_root_dep.
  - apply H4. intros k q. unfold plook_cb. ros.
Qed.
Definition slooks (op : sop K U) : Prop :=
  match op with SHas _ _ | SLen _ | SDep _ | SAll _ _ => True | _ => False end.
Lemma ro_scall p op : sapi_reads p -> slooks op -> readonly (pscall p op).
Proof.
  intros [H1 H2] Hc. destruct op; simpl in Hc; try done; cbn [pscall]; ros.
  - unfold Len. apply ro_root_len.
  - unfold Dep. apply ro_root_dep.
  - apply H2. intros k. unfold pset_cb. ros.
Qed.
End api.

Section types.
Variable sum64 : N -> bytes -> N.
Context {V U : Type} (zero : V) (fuel : nat).
Lemma ro_kv_key {K W} iv : readonly (kv_key (K:=K) (V:=W) (U:=U) iv).
Proof. unfold kv_key. ros. Qed.
Lemma ro_int_key {W} iv : readonly (int_key (V:=W) (U:=U) iv).
Proof. done. Qed.
Ltac mrd := split; intros; [eapply ro_get|eapply ro_val|eapply ro_ptr_of|eapply ro_all_map]; intros; auto; first [apply ro_kv_key|apply ro_int_key].
Ltac srd := split; intros; [eapply ro_has|eapply ro_all_set]; intros; auto; first [apply ro_kv_key|apply ro_int_key].
Lemma StringMap_reads : mapi_reads (PStringMap_api (V:=V) (U:=U) sum64 zero fuel).
Proof. mrd. Qed.
Lemma BytesMap_reads : mapi_reads (PBytesMap_api (V:=V) (U:=U) sum64 zero fuel).
Proof. mrd. Qed.
Lemma IntMap_reads : mapi_reads (PIntMap_api (V:=V) (U:=U) sum64 zero fuel).
Proof. mrd. Qed.
Lemma ArrMap_reads {K} keq KB : mapi_reads (PArrMap_api (V:=V) (U:=U) (K:=K) sum64 zero fuel keq KB).
Proof. mrd. Qed.
Lemma Map_reads {K} eq H : mapi_reads (PMap_api (V:=V) (U:=U) (K:=K) zero fuel eq H).
Proof. mrd. Qed.
Lemma StringSet_reads : sapi_reads (PStringSet_api (U:=U) sum64 fuel).
Proof. srd. Qed.
Lemma BytesSet_reads : sapi_reads (PBytesSet_api (U:=U) sum64 fuel).
Proof. srd. Qed.
Lemma IntSet_reads : sapi_reads (PIntSet_api (U:=U) sum64 fuel).
Proof. srd. Qed.
Lemma ArrSet_reads {K} keq KB : sapi_reads (PArrSet_api (U:=U) (K:=K) sum64 fuel keq KB).
Proof. srd. Qed.
Lemma Set_reads {K} eq H : sapi_reads (PSet_api (U:=U) (K:=K) fuel eq H).
Proof. srd. Qed.
End types.
