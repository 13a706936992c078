(** What the methods show of reachable states. *)
From Coq Require Import Sorted SpecFloat.
From stdpp Require Import base numbers list gmap.
From Verif Require Import GoInt Mem Spec SpecFacts Guards Client Types Observe Order Pack.
Local Open Scope nat_scope.

(** ** Specification states *)
Section spec.
Context `{Countable K} {V U : Type}.
Variable dig : N -> K -> nat -> N.
Variable zero : V.
Implicit Types (σ : mstate K V U) (k : K) (h p : positive) (v : V) (u : U).
Local Notation mspec := (mspec dig zero).
Local Notation mstep := (mstep dig zero).

Definition cont σ h : gmap K V :=
  match ms_map σ !! h with Some (_, m) => omap (λ p, ms_val σ !! p) m | None => ∅ end.

Lemma cont_lookup σ h k : cont σ h !! k = value σ h k.
Proof.
  unfold cont, value. destruct (ms_map σ !! h) as [[s m]|]; simpl; [|apply lookup_empty].
  by rewrite lookup_omap.
Qed.

Lemma cont_dom σ h s m : mwf σ -> ms_map σ !! h = Some (s, m) -> dom (cont σ h) = dom m.
Proof.
  intros Hw Hm. apply set_eq. intros k. rewrite !elem_of_dom, cont_lookup. unfold value. rewrite Hm. simpl.
  destruct (m !! k) as [p|] eqn:E; simpl; [|split; by intros [? ?]].
  destruct (mw_val _ Hw _ _ _ _ _ Hm E) as [v ->]. split; eauto.
Qed.

Lemma cont_size σ h s m : mwf σ -> ms_map σ !! h = Some (s, m) -> size (cont σ h) = size m.
Proof. intros Hw Hm. rewrite <-!(size_dom (D:=gset K)). by rewrite (cont_dom _ _ _ _ Hw Hm). Qed.

Lemma dom_keys {A B} (m : gmap K A) (m' : gmap K B) : dom m = dom m' -> (map_to_list m).*1 ≡ₚ (map_to_list m').*1.
Proof.
  intros Hd. apply NoDup_Permutation; [apply NoDup_fst_map_to_list..|]. intros k.
  assert (Hin : ∀ C (q : gmap K C), k ∈ (map_to_list q).*1 <-> k ∈ dom q).
  { intros C q. rewrite elem_of_dom, elem_of_list_fmap. split.
    - intros ([k' c] & -> & Hc). apply elem_of_map_to_list in Hc. simpl. eauto.
    - intros [c Hc]. exists (k, c). split; [done|]. by apply elem_of_map_to_list. }
  by rewrite !Hin, Hd.
Qed.

Lemma cont_keys σ h s m : mwf σ -> ms_map σ !! h = Some (s, m) ->
  (map_to_list (cont σ h)).*1 ≡ₚ (map_to_list m).*1.
Proof. intros Hw Hm. apply dom_keys. by eapply cont_dom. Qed.

Lemma mspec_new u0 tr σ : mspec u0 tr σ -> ∀ s h, (MNew s, RHandle h) ∈ tr -> ∃ m, ms_map σ !! h = Some (s, m).
Proof.
  induction 1 as [|tr σ op res σ' Hs IH Hst]; intros s h Hin; [by apply elem_of_nil in Hin|].
  apply elem_of_cons in Hin as [[= <- <-]|Hin].
  - destruct Hst as (h' & [= <-] & _ & ->). simpl. rewrite lookup_insert. eauto.
  - apply IH in Hin as [m Hm]. destruct (mstep_wf dig zero σ op res σ' (mspec_wf _ _ _ _ _ Hs) Hst) as [_ [Hg _]].
    by apply Hg in Hm.
Qed.

(** *** The effect of each call on the contents *)
Lemma put_cont σ h k v u σ' : mwf σ -> put σ h k v u σ' ->
  cont σ' h = <[k := v]> (cont σ h) /\ (∀ h', h' ≠ h -> cont σ' h' = cont σ h') /\ ms_usr σ' = u.
Proof.
  intros Hw (s & m & Hm & Hp).
  assert (Hother : ∀ h' k' p q, ms_val σ' = <[p := q]> (ms_val σ) ->
    ms_map σ' !! h' = ms_map σ !! h' ->
    (∀ s' m', ms_map σ !! h' = Some (s', m') -> m' !! k' ≠ Some p) -> cont σ' h' !! k' = cont σ h' !! k').
  { intros h' k' p q Hv Hmm Hne. rewrite !cont_lookup. unfold value. rewrite Hmm, Hv.
    destruct (ms_map σ !! h') as [[s' m']|] eqn:E; simpl; [|done]. specialize (Hne s' m' eq_refl).
    destruct (m' !! k') as [p'|]; simpl; [|done]. rewrite lookup_insert_ne; [done|congruence]. }
  destruct (m !! k) as [p|] eqn:E.
  - subst σ'. split_and!; [| |done].
    + apply map_eq. intros k'. destruct (decide (k' = k)) as [->|Hk].
      * rewrite lookup_insert, cont_lookup. unfold value. simpl. rewrite Hm. simpl. rewrite E. simpl. by rewrite lookup_insert.
      * rewrite lookup_insert_ne by done. eapply Hother; [done..|]. intros s' m' Hm' Hk'.
        destruct (mw_inj _ Hw _ _ _ _ _ _ _ _ _ Hm E Hm' Hk') as [_ ->]. done.
    + intros h' Hh. apply map_eq. intros k'. eapply Hother; [done..|]. intros s' m' Hm' Hk'.
      destruct (mw_inj _ Hw _ _ _ _ _ _ _ _ _ Hm E Hm' Hk') as [-> _]. done.
  - destruct Hp as (p & Hf & ->).
    assert (Hfr : ∀ h' s' m' k', ms_map σ !! h' = Some (s', m') -> m' !! k' ≠ Some p).
    { intros h' s' m' k' Hm' Hk'. destruct (mw_val _ Hw _ _ _ _ _ Hm' Hk'). congruence. }
    split_and!; [| |done].
    + apply map_eq. intros k'. rewrite cont_lookup. unfold value. simpl. rewrite lookup_insert. simpl.
      destruct (decide (k' = k)) as [->|Hk]; [by rewrite !lookup_insert; simpl; rewrite lookup_insert|].
      rewrite !lookup_insert_ne by done. rewrite cont_lookup. unfold value. rewrite Hm. simpl.
      destruct (m !! k') as [p'|] eqn:E'; simpl; [|done]. rewrite lookup_insert_ne; [done|].
      intros ->. by eapply Hfr.
    + intros h' Hh. apply map_eq. intros k'. eapply Hother; [done|simpl; by rewrite lookup_insert_ne|]. eauto.
Qed.

Lemma del_cont σ h k s m : ms_map σ !! h = Some (s, m) ->
  let σ' := MState (<[h := (s, delete k m)]> (ms_map σ)) (ms_val σ) (ms_usr σ) in
  cont σ' h = delete k (cont σ h) /\ ∀ h', h' ≠ h -> cont σ' h' = cont σ h'.
Proof.
  intros Hm σ'. split.
  - apply map_eq. intros k'. rewrite cont_lookup. unfold value. simpl. rewrite lookup_insert. simpl.
    destruct (decide (k' = k)) as [->|Hk]; [by rewrite !lookup_delete|].
    rewrite !lookup_delete_ne by done. rewrite cont_lookup. unfold value. by rewrite Hm.
  - intros h' Hh. unfold cont. simpl. by rewrite lookup_insert_ne.
Qed.

Lemma new_cont σ h s :
  let σ' := MState (<[h := (s, ∅)]> (ms_map σ)) (ms_val σ) (ms_usr σ) in
  cont σ' h = ∅ /\ ∀ h', h' ≠ h -> cont σ' h' = cont σ h'.
Proof.
  intros σ'. split.
  - unfold cont. simpl. rewrite lookup_insert. apply omap_empty.
  - intros h' Hh. unfold cont. simpl. by rewrite lookup_insert_ne.
Qed.

Lemma store_cont σ p v : mwf σ ->
  let σ' := MState (ms_map σ) (<[p := v]> (ms_val σ)) (ms_usr σ) in
  (∀ h s m k, ms_map σ !! h = Some (s, m) -> m !! k = Some p -> cont σ' h = <[k := v]> (cont σ h)) /\
  (∀ h, (∀ s m k, ms_map σ !! h = Some (s, m) -> m !! k ≠ Some p) -> cont σ' h = cont σ h).
Proof.
  intros Hw σ'. split.
  - intros h s m k Hm Hk. apply (put_cont σ h k v (ms_usr σ)); [done|]. exists s, m. by rewrite Hk.
  - intros h Hn. apply map_eq. intros k. rewrite !cont_lookup. unfold value. simpl.
    destruct (ms_map σ !! h) as [[s m]|] eqn:Hm; simpl; [|done].
    destruct (m !! k) as [p'|] eqn:Hk; simpl; [|done]. rewrite lookup_insert_ne; [done|].
    intros ->. by eapply Hn.
Qed.

(** Iteration. *)
Lemma each_visit f (ps : list (K * positive)) : ∀ (es : list (K * V)) u vals,
  NoDup ps.*2 -> es.*1 = ps.*1 -> (∀ i k p, ps !! i = Some (k, p) -> ∃ v, vals !! p = Some v /\ es !! i = Some (k, v)) ->
  (each f ps u vals).1 = usr_after f es u /\
  (∀ p, p ∉ ps.*2 -> (each f ps u vals).2 !! p = vals !! p) /\
  (∀ i k p, ps !! i = Some (k, p) -> ∃ v, (each f ps u vals).2 !! p = Some v /\ after f es u !! i = Some (k, v)) /\
  (after f es u).*1 = es.*1.
Proof.
  induction ps as [|[k p] ps IH]; intros [|[k' v] es] u vals Hnd Hk He; try done.
  injection Hk as -> Hk. apply NoDup_cons in Hnd as [Hp Hnd].
  destruct (He 0 k p eq_refl) as (v' & Hv & [= <-]).
  unfold usr_after, after. simpl. rewrite Hv. destruct (f u k v) as [[u1 v1] go] eqn:Ef.
  assert (Hs : ∀ i k' p', ps !! i = Some (k', p') -> p' ≠ p).
  { intros i k' p' Hi ->. apply Hp. apply elem_of_list_fmap. exists (k', p). split; [done|]. by eapply elem_of_list_lookup_2. }
  assert (He1 : ∀ i k' p', ps !! i = Some (k', p') -> ∃ v', <[p := v1]> vals !! p' = Some v' /\ es !! i = Some (k', v')).
  { intros i k' p' Hi. destruct (He (S i) k' p' Hi) as (v' & Hv' & He'). exists v'. split; [|done].
    rewrite lookup_insert_ne; [done|]. intros <-. by eapply Hs. }
  destruct go.
  - destruct (IH es u1 (<[p := v1]> vals) Hnd Hk He1) as (Hu & Hv2 & Hvs & Hks).
    unfold usr_after, after in *. destruct (visit f es u1) as [[cs u2] es2]. simpl in *.
    split_and!; [done| | |f_equal; exact Hks].
    + intros p' Hp'. apply not_elem_of_cons in Hp' as [Hne Hp']. rewrite Hv2 by done. by rewrite lookup_insert_ne.
    + intros [|i] k' p' Hi; simpl in Hi |- *.
      * injection Hi as <- <-. exists v1. split; [|done]. rewrite Hv2 by done. apply lookup_insert.
      * by apply Hvs.
  - simpl. split_and!; [done| | |done].
    + intros p' Hp'. apply not_elem_of_cons in Hp' as [Hne Hp']. by rewrite lookup_insert_ne.
    + intros [|i] k' p' Hi; simpl in Hi |- *.
      * injection Hi as <- <-. exists v1. split; [|done]. apply lookup_insert.
      * by apply He1.
Qed.

Lemma all_cont σ h s m f ps : mwf σ -> ms_map σ !! h = Some (s, m) -> ps ≡ₚ map_to_list m ->
  let σ' := MState (ms_map σ) (each f ps (ms_usr σ) (ms_val σ)).2 (each f ps (ms_usr σ) (ms_val σ)).1 in
  ∃ es, es ≡ₚ map_to_list (cont σ h) /\ es.*1 = ps.*1 /\ ms_usr σ' = usr_after f es (ms_usr σ) /\
    cont σ' h = list_to_map (after f es (ms_usr σ)) /\ ∀ h', h' ≠ h -> cont σ' h' = cont σ h'.
Proof.
  intros Hw Hm Hps σ'.
  set (es := omap (λ x : K * positive, (λ v, (x.1, v)) <$> (ms_val σ !! x.2)) ps).
  assert (Hin : ∀ k p, (k, p) ∈ ps <-> m !! k = Some p).
  { intros k p. rewrite Hps. apply elem_of_map_to_list. }
  assert (Hndk : NoDup ps.*1) by (rewrite Hps; apply NoDup_fst_map_to_list).
  assert (Hndp : NoDup ps.*2).
  { assert (Hg : ∀ l : list (K * positive), NoDup l.*1 -> (∀ x, x ∈ l -> x ∈ ps) -> NoDup l.*2).
    { induction l as [|[k p] l IH]; intros Hn Hsub; [constructor|]. apply NoDup_cons in Hn as [Hk Hn]. simpl. constructor.
      - intros (x & -> & Hx)%elem_of_list_fmap. destruct x as [k' p']. simpl in *.
        assert (H1 : m !! k = Some p') by (apply Hin, Hsub; left).
        assert (H2 : m !! k' = Some p') by (apply Hin, Hsub; by right).
        destruct (mw_inj _ Hw _ _ _ _ _ _ _ _ _ Hm H1 Hm H2) as [_ ->]. apply Hk, elem_of_list_fmap. by exists (k, p').
      - apply IH; [done|]. intros x Hx. apply Hsub. by right. }
    apply Hg; auto. }
  assert (Hes : ∀ l : list (K * positive), (∀ x, x ∈ l -> x ∈ ps) ->
    (omap (λ x : K * positive, (λ v, (x.1, v)) <$> (ms_val σ !! x.2)) l).*1 = l.*1 /\
    ∀ i k p, l !! i = Some (k, p) -> ∃ v, ms_val σ !! p = Some v /\
      omap (λ x : K * positive, (λ v, (x.1, v)) <$> (ms_val σ !! x.2)) l !! i = Some (k, v)).
  { induction l as [|[k p] l IH]; intros Hsub; [done|].
    destruct (mw_val _ Hw _ _ _ _ _ Hm (proj1 (Hin k p) (Hsub _ (elem_of_list_here _ _)))) as [v Hv].
    destruct IH as [IH1 IH2]; [intros x Hx; apply Hsub; by right|].
    simpl. rewrite Hv. simpl. split; [by f_equal|]. intros [|i] k' p' Hi; simpl in Hi |- *.
    - injection Hi as <- <-. eauto.
    - by apply IH2. }
  destruct (Hes ps) as [Hk Hl]; [done|]. fold es in Hk, Hl.
  destruct (each_visit f ps es (ms_usr σ) (ms_val σ) Hndp Hk Hl) as (Hu & Hv & Ha & Hak).
  assert (Hnde : NoDup es.*1) by (by rewrite Hk).
  exists es. split_and!; [|done|done| |].
  - apply NoDup_Permutation; [by eapply NoDup_fmap_1|apply NoDup_map_to_list|]. intros [k v].
    rewrite elem_of_map_to_list, cont_lookup. unfold value. rewrite Hm. simpl. split.
    + intros [i Hi]%elem_of_list_lookup_1.
      assert (Hk1 : es.*1 !! i = Some k) by (by rewrite list_lookup_fmap, Hi).
      rewrite Hk, list_lookup_fmap in Hk1. destruct (ps !! i) as [[k' p]|] eqn:Ei; [|done]. injection Hk1 as ->.
      destruct (Hl _ _ _ Ei) as (v' & Hv' & He'). rewrite Hi in He'. injection He' as <-.
      apply elem_of_list_lookup_2, Hin in Ei. rewrite Ei. simpl. done.
    + intros He. destruct (m !! k) as [p|] eqn:E; [|done]. simpl in He.
      apply Hin, elem_of_list_lookup_1 in E as [i Ei]. destruct (Hl _ _ _ Ei) as (v' & Hv' & He').
      rewrite He in Hv'. injection Hv' as <-. by eapply elem_of_list_lookup_2.
  - apply map_eq. intros k. rewrite cont_lookup. unfold value. simpl. rewrite Hm. simpl.
    assert (Hnda : NoDup (after f es (ms_usr σ)).*1) by (by rewrite Hak).
    destruct (m !! k) as [p|] eqn:E; simpl.
    + apply Hin, elem_of_list_lookup_1 in E as [i Ei]. destruct (Ha _ _ _ Ei) as (v & Hv2 & Hi2).
      rewrite Hv2. symmetry. apply elem_of_list_to_map_1; [done|]. by eapply elem_of_list_lookup_2.
    + symmetry. apply not_elem_of_list_to_map_1. rewrite Hak, Hk. intros ([k' p] & -> & Hx)%elem_of_list_fmap.
      apply Hin in Hx. simpl in *. congruence.
  - intros h' Hh. apply map_eq. intros k. rewrite !cont_lookup. unfold value. simpl.
    destruct (ms_map σ !! h') as [[s' m']|] eqn:Hm'; simpl; [|done].
    destruct (m' !! k) as [p|] eqn:E; simpl; [|done]. apply Hv. intros ([k' p'] & -> & Hx)%elem_of_list_fmap.
    apply Hin in Hx. simpl in *. destruct (mw_inj _ Hw _ _ _ _ _ _ _ _ _ Hm Hx Hm' E) as [-> _]. done.
Qed.

(** *** Pointers *)
Definition owned σ p : Prop := ∃ h s m k, ms_map σ !! h = Some (s, m) /\ m !! k = Some p.
Definition at_ σ h k p : Prop := ∃ s m, ms_map σ !! h = Some (s, m) /\ m !! k = Some p.

Lemma put_at σ h k v u σ' h' k' p : mwf σ -> put σ h k v u σ' -> is_Some (ms_val σ !! p) ->
  at_ σ' h' k' p <-> at_ σ h' k' p.
Proof.
  intros Hw (s & m & Hm & Hp) Hval. destruct (m !! k) as [q|] eqn:E; [by subst σ'|].
  destruct Hp as (q & Hf & ->). unfold at_. simpl. destruct (decide (h' = h)) as [->|Hh].
  - rewrite lookup_insert. split.
    + intros (s1 & m1 & [= <- <-] & Hk). destruct (decide (k' = k)) as [->|Hk1].
      * rewrite lookup_insert in Hk. injection Hk as <-. destruct Hval. congruence.
      * rewrite lookup_insert_ne in Hk by done. eauto.
    + intros (s1 & m1 & Hm1 & Hk). rewrite Hm in Hm1. injection Hm1 as <- <-. eexists _, _. split; [done|].
      rewrite lookup_insert_ne; [done|congruence].
  - by rewrite lookup_insert_ne by done.
Qed.

Lemma mstep_at σ op res σ' h k p : mwf σ -> mstep σ op res σ' -> is_Some (ms_val σ !! p) ->
  at_ σ' h k p <-> at_ σ h k p /\ op ≠ MDel h k.
Proof.
  intros Hw Hst Hp. destruct op as [s1|h1 k1 v|h1 k1 f|h1 k1|h1 k1|h1 k1|h1 k1|h1|h1|h1 f|p1|p1 v]; simpl in Hst.
  - destruct Hst as (h1 & _ & Hn & ->). unfold at_. simpl. destruct (decide (h = h1)) as [->|Hh].
    + rewrite lookup_insert, Hn. split; [intros (?&?&[= <- <-]&Hk); by rewrite lookup_empty in Hk|naive_solver].
    + rewrite lookup_insert_ne by done. naive_solver.
  - destruct Hst as (_ & Hput). rewrite (put_at _ _ _ _ _ _ h k p Hw Hput Hp). naive_solver.
  - destruct Hst as (_ & Hput). destruct (f _ _ _) as [u1 v1]. rewrite (put_at _ _ _ _ _ _ h k p Hw Hput Hp). naive_solver.
  - destruct Hst as (_ & s & m & Hm & ->). unfold at_. simpl. destruct (decide (h = h1)) as [->|Hh].
    + rewrite lookup_insert. destruct (decide (k = k1)) as [->|Hk].
      * split; [intros (?&?&[= <- <-]&Hk); by rewrite lookup_delete in Hk|naive_solver].
      * split.
        -- intros (?&?&[= <- <-]&Hk2). rewrite lookup_delete_ne in Hk2 by done. naive_solver.
        -- intros [(s1 & m1 & Hm1 & Hk1) _]. rewrite Hm in Hm1. injection Hm1 as <- <-.
           eexists _, _. split; [done|]. by rewrite lookup_delete_ne.
    + rewrite lookup_insert_ne by done. naive_solver.
  - destruct Hst as (-> & _). naive_solver.
  - destruct Hst as (-> & _). naive_solver.
  - destruct Hst as (-> & _). naive_solver.
  - destruct Hst as (-> & _). naive_solver.
  - destruct Hst as (-> & _). naive_solver.
  - destruct Hst as (_ & s & m & es & _ & _ & _ & ->). unfold at_. simpl. naive_solver.
  - destruct Hst as (-> & _). naive_solver.
  - destruct Hst as (_ & _ & ->). unfold at_. simpl. naive_solver.
Qed.

(** From the moment a pointer is returned. *)
Lemma ptr_history u0 tr1 h k p : ∀ tr2 σ, mspec u0 (tr2 ++ (MPtr h k, RPtr (Some p)) :: tr1) σ ->
  is_Some (ms_val σ !! p) /\
  ∀ h' k', at_ σ h' k' p <-> h' = h /\ k' = k /\ ∀ r, (MDel h k, r) ∉ tr2.
Proof.
  induction tr2 as [|[op r] tr2 IH]; intros σ Hs; simpl in Hs.
  - inversion Hs as [|tr σ0 op res σ' Hs0 Hst]; subst. destruct Hst as (-> & s & m & Hm & [= Hk]).
    pose proof (mspec_wf _ _ _ _ _ Hs0) as Hw. split; [by eapply (mw_val _ Hw)|].
    intros h' k'. split.
    + intros (s' & m' & Hm' & Hk'). destruct (mw_inj _ Hw _ _ _ _ _ _ _ _ _ Hm (eq_sym Hk) Hm' Hk') as [-> ->].
      split_and!; [done..|]. intros r. apply not_elem_of_nil.
    + intros (-> & -> & _). exists s, m. done.
  - inversion Hs as [|tr σ0 op' res σ' Hs0 Hst]; subst.
    pose proof (mspec_wf _ _ _ _ _ Hs0) as Hw. destruct (IH _ Hs0) as [Hv Hat]. split.
    + by apply (proj2 (proj2 (mstep_wf dig zero _ _ _ _ Hw Hst))).
    + intros h' k'. rewrite (mstep_at _ _ _ _ h' k' p Hw Hst Hv), Hat. split.
      * intros ((-> & -> & Hn) & Hop). split_and!; [done..|]. intros r' [Heq|Hin]%elem_of_cons; [by injection Heq as <- <-|by eapply Hn].
      * intros (-> & -> & Hn). split_and!; [done..| |].
        -- intros r' Hin. eapply Hn. by right.
        -- intros ->. eapply Hn. left.
Qed.
End spec.
