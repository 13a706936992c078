(** Joining goroutines that use sets. *)
From stdpp Require Import base numbers list gmap relations.
From Verif Require Import GoInt Mem Hash Prog PAmt PFam ProgSim Amt Families BitsFacts Steps Tree Rep Paths Descend Insert Split Delete Remove Core Scan Order Heap Spec SpecFacts HashFacts Client Types Refine RefineSet Instances Pack Runs Guards PClient ConcSpec Conc ReadOnly ConcClient ForkSpec Knows ConcMap ConcMapAll ConcSet ForkMap.
Local Open Scope nat_scope.

Section stored.
Context `{Countable K} {U : Type}.
Local Notation history := (list (sop K U * sres)).
Local Notation touches := (RefineSet.touches (K:=K) (U:=U)).
Lemma sstored_cong (new t1 t2 : history) h : sstored t1 h = sstored t2 h -> sstored (new ++ t1) h = sstored (new ++ t2) h.
Proof.
  intros Ht. induction new as [|[op r] new IH]; [done|].
  destruct op as [s|h' k|h' k|h' k|h'|h'|h' f]; cbn [app sstored]; rewrite ?IH; done.
Qed.
Lemma sstored_other (new tr : history) h : (∀ op r, (op, r) ∈ new -> ¬ touches op h) -> sstored (new ++ tr) h = sstored tr h.
Proof.
  intros Hn. induction new as [|[op r] new IH]; [done|].
  assert (Hw : ¬ touches op h) by (apply (Hn op r); by left).
  rewrite <- IH by (intros op' r' Hin; apply (Hn op' r'); by right).
  destruct op as [s|h' k|h' k|h' k|h'|h'|h' f]; cbn [app sstored]; try done;
    (destruct (Pos.eqb_spec h' h) as [->|_]; [by destruct Hw|done]).
Qed.
Lemma sstored_concat_one (news : list history) tr h i new : news !! i = Some new ->
  (∀ j new', news !! j = Some new' -> j ≠ i -> ∀ op r, (op, r) ∈ new' -> ¬ touches op h) ->
  sstored (concat news ++ tr) h = sstored (new ++ tr) h.
Proof.
  revert i. induction news as [|new0 news IH]; intros i Hi Ho; [by rewrite lookup_nil in Hi|]. simpl. rewrite <- app_assoc.
  destruct i as [|i]; simpl in Hi.
  - injection Hi as ->. apply sstored_cong. apply sstored_other. intros op r Hin.
    apply elem_of_list_In, List.in_concat in Hin as (new' & Hnew & Hx). apply elem_of_list_In, elem_of_list_lookup in Hnew as [j Hj].
    apply elem_of_list_In in Hx. by apply (Ho (S j) new' Hj (Nat.neq_succ_0 j) op r).
  - rewrite sstored_other; [|intros op r Hin; by apply (Ho 0 new0 eq_refl (Nat.neq_0_succ i) op r)]. apply (IH i Hi). intros j new' Hj Hne. apply (Ho (S j) new' Hj). congruence.
Qed.
Lemma sstored_concat_none (news : list history) tr h :
  (∀ j new', news !! j = Some new' -> ∀ op r, (op, r) ∈ new' -> ¬ touches op h) -> sstored (concat news ++ tr) h = sstored tr h.
Proof.
  intros Ho. apply sstored_other. intros op r Hin.
  apply elem_of_list_In, List.in_concat in Hin as (new' & Hnew & Hx). apply elem_of_list_In, elem_of_list_lookup in Hnew as [j Hj].
  apply elem_of_list_In in Hx. by apply (Ho j new' Hj op r).
Qed.
Lemma in_concat_s (news : list history) tr x : x ∈ concat news ++ tr <-> (∃ i new, news !! i = Some new /\ x ∈ new) \/ x ∈ tr.
Proof.
  rewrite elem_of_app. apply or_iff_compat_r. rewrite elem_of_list_In, List.in_concat. split.
  - intros (new & Hnew & Hx). apply elem_of_list_In, elem_of_list_lookup in Hnew as [i Hi]. exists i, new. split; [done|by apply elem_of_list_In].
  - intros (i & new & Hi & Hx). exists new. split; [|by apply elem_of_list_In]. apply elem_of_list_In. by eapply elem_of_list_lookup_2.
Qed.
End stored.

Section join.
Context `{Countable K} {HS CK U : Type}.
Variables (dig : N -> K -> nat -> N).
Variables (F : fam K HS unit CK U) (L : layout K unit CK) (Q : N -> Prop).
Local Notation sop := (sop K U).
Local Notation history := (list (sop * sres)).
Local Notation world := (world unit CK U).
Local Notation sstate := (sstate K U).
Local Notation tree := (tree K).
Local Notation heap := (gmap loc (N * tree)).
Local Notation RelG := (RefineSet.RelG F L Q).
Variables (tr : history) (w : world) (σ : sstate) (G : heap).
Hypothesis (Hs : sknows tr σ) (HR : RelG G w σ).
Variables (own : positive -> option nat) (starts : list loc).
Hypothesis Hsp : spread (w_nxt w) starts.
Local Notation X := (sXs G own starts).
Local Notation Sb := (sSs G own starts).
Local Notation mi := (mis G own).
Local Notation sh := (shs G own).
Local Notation belongs := (sbelongs G).
Record sleft : Type := SLeft { sl_new : history; sl_st : sstate; sl_heap : heap; sl_w : world }.
Variables (rs : list sleft) (m : gmap loc (block unit CK)) (n : loc) (u : U).
Hypothesis Hlen : length rs = length starts.
Hypothesis Hrs : ∀ i r, rs !! i = Some r ->
  sholding dig F L Q (X i) Sb (mi i) sh σ G (w_mem w) (sl_new r) (sl_st r) (sl_heap r) (sl_w r) /\
  ∀ l, X i l = true -> m !! l = w_mem (sl_w r) !! l.
Hypothesis Hm : ∀ l, (∀ i, X i l = false) -> m !! l = w_mem w !! l.
Hypothesis Hfree : ∀ l, is_Some (m !! l) -> (l < n)%positive.
Local Notation who := (who X (length starts)).

Lemma sHX : ∀ i j l, X i l = true -> X j l = true -> i = j.
Proof. eapply sXs_fun; eassumption. Qed.
Lemma sHn : ∀ i l, X i l = true -> i < length starts.
Proof. intros i l. unfold sXs. destruct (starts !! i) eqn:E; [|done]. intros _. by eapply lookup_lt_Some. Qed.
Local Notation some := (who_some X (length starts) sHX sHn).
Local Notation none := (who_none X (length starts) sHX sHn).
Lemma swho_res i l : who l = Some i -> ∃ r, rs !! i = Some r.
Proof. intros Hw. apply who_X, sHn in Hw. rewrite <- Hlen in Hw. apply lookup_lt_is_Some_2 in Hw as [r Hr]. eauto. Qed.
Lemma sX_own i l h : X i l = true -> belongs l h -> own h = Some i.
Proof.
  intros Hx Hb. apply sXs_iff in Hx as (a & Ha & [Hna|(h' & Ho & Hb')]).
  - exfalso. destruct Hsp as [Hge _]. eapply sbelongs_lt in Hb; [|eassumption..]. apply names_le in Hna. apply elem_of_list_lookup_2, Hge in Ha. lia.
  - by rewrite (sbelongs_fun F L Q w σ G HR _ _ _ Hb Hb').
Qed.
Lemma sown_X i l h a : own h = Some i -> starts !! i = Some a -> belongs l h -> X i l = true.
Proof. intros Ho Ha Hb. apply sXs_iff. exists a. split; [done|]. right. eauto. Qed.
Lemma sroot_belongs h : is_Some (G !! h) -> belongs h h.
Proof. intros [[s T] HG]. exists s, T. split; [done|by left]. Qed.
Lemma sX_mi i h : X i h = true -> mi i h = true.
Proof.
  intros Hx. unfold mis, old. destruct (bool_decide_reflect (is_Some (G !! h))) as [Ho|]; [|done].
  apply bool_decide_eq_true. eapply sX_own; [done|]. by apply sroot_belongs.
Qed.
Lemma ssame_who l h : belongs l h -> is_Some (G !! h) -> who h = None -> who l = None.
Proof.
  intros Hb Hg Hw. destruct (who l) as [i|] eqn:E; [|done]. apply who_X in E.
  pose proof (sX_own i l h E Hb) as Ho. pose proof (sHn _ _ E) as Hi. apply lookup_lt_is_Some_2 in Hi as [a Ha].
  pose proof (sown_X i h h a Ho Ha (sroot_belongs h Hg)) as Hx. by rewrite (some i h Hx) in Hw.
Qed.

Theorem sjoin_ok : ∃ σ', ss_usr σ' = u /\ merged (ss_set σ) (map (λ r, ss_set (sl_st r)) rs) (ss_set σ') /\
  sknows (concat (map sl_new rs) ++ tr) σ' /\ RefineSet.Rel F L Q (World m n u) σ'.
Proof.
  pose proof HR as (HI & Hmap & Husr).
  destruct (compose X (length starts) G (map sl_heap rs)) as [G' HG'].
  assert (HGi : ∀ h i r, who h = Some i -> rs !! i = Some r -> G' !! h = sl_heap r !! h).
  { intros h i r Hw Hr. rewrite HG', Hw. change (map sl_heap rs) with (sl_heap <$> rs). by rewrite list_lookup_fmap, Hr. }
  assert (HGn : ∀ h, who h = None -> G' !! h = G !! h) by (intros h Hw; by rewrite HG', Hw).
  set (w' := World m n u).
  assert (Hk : ∀ i r, rs !! i = Some r -> sknows (sl_new r ++ tr) (sl_st r)).
  { intros i r Hr. destruct (Hrs i r Hr) as [Hh _]. eapply sholding_knows; [exact Hs|exact Hh]. }
  assert (Hrel : ∀ i r, rs !! i = Some r -> RelG (sl_heap r) (sl_w r) (sl_st r)) by (intros i r Hr; apply (Hrs i r Hr)).
  evar (f : N * tree -> N * gset K).
  assert (Hf : ∀ G w σ, RelG G w σ -> ss_set σ = f <$> G) by (intros G0 w0 σ0 (_ & E & _); exact E).
  set (σ' := SState (f <$> G') u : sstate).
  assert (Hmi : ∀ h i r, who h = Some i -> rs !! i = Some r -> ss_set σ' !! h = ss_set (sl_st r) !! h).
  { intros h i r Hw Hr. rewrite (Hf _ _ _ (Hrel i r Hr)). unfold σ'. cbn [ss_set]. by rewrite !lookup_fmap, (HGi h i r Hw Hr). }
  assert (Hmn : ∀ h, who h = None -> ss_set σ' !! h = ss_set σ !! h).
  { intros h Hw. rewrite (Hf _ _ _ HR). unfold σ'. cbn [ss_set]. by rewrite !lookup_fmap, (HGn h Hw). }
  assert (Hoi : ∀ i r, rs !! i = Some r -> ∀ h, X i h = false -> ss_set (sl_st r) !! h = ss_set σ !! h).
  { intros i r Hr h Hx. destruct (Hrs i r Hr) as [Hh _].
    rewrite (Hf _ _ _ (Hrel i r Hr)), (Hf _ _ _ HR), !lookup_fmap. f_equal. by eapply sd_maps. }
  (* The joined memory. *)
  assert (Hfoot : ∀ h i r s T, who h = Some i -> rs !! i = Some r -> sl_heap r !! h = Some (s, T) -> ∀ l, l ∈ foot h T -> X i l = true).
  { intros h i r s T Hw Hr HG l Hl. destruct (Hrs i r Hr) as [Hh _]. apply who_X in Hw.
    eapply sd_mine; [exact Hh|exact HG|by apply sX_mi|done]. }
  assert (Hfootn : ∀ h s T, who h = None -> G !! h = Some (s, T) -> ∀ l, l ∈ foot h T -> ∀ i, X i l = false).
  { intros h s T Hw HG l Hl. apply none. apply (ssame_who l h); [|by eauto|done]. red. eauto. }
  assert (HI' : Inv F L 240 Q w' G').
  { constructor.
    - intros l b Hb. apply Hfree. by exists b.
    - intros h s T HG. destruct (who h) as [i|] eqn:Hw.
      + destruct (swho_res i h Hw) as [r Hr]. rewrite (HGi h i r Hw Hr) in HG. destruct (Hrel i r Hr) as (HIi & _).
        destruct (in_good _ _ _ _ _ _ HIi _ _ _ HG) as [HQ Hg]. split; [done|]. eapply Good_keep; [done|].
        intros l Hl. apply keep_same. simpl. by rewrite (proj2 (Hrs i r Hr) l (Hfoot h i r s T Hw Hr HG l Hl)).
      + rewrite (HGn h Hw) in HG. destruct (in_good _ _ _ _ _ _ HI _ _ _ HG) as [HQ Hg]. split; [done|]. eapply Good_keep; [done|].
        intros l Hl. apply keep_same. simpl. by rewrite (Hm l (Hfootn h s T Hw HG l Hl)).
    - intros h1 s1 T1 h2 s2 T2 Hne H1 H2 l Hl1 Hl2. destruct (who h1) as [i|] eqn:Hw1; destruct (who h2) as [j|] eqn:Hw2.
      + destruct (swho_res i h1 Hw1) as [r Hr]. rewrite (HGi h1 i r Hw1 Hr) in H1.
        destruct (swho_res j h2 Hw2) as [r' Hr']. rewrite (HGi h2 j r' Hw2 Hr') in H2.
        pose proof (sHX _ _ _ (Hfoot h1 i r s1 T1 Hw1 Hr H1 l Hl1) (Hfoot h2 j r' s2 T2 Hw2 Hr' H2 l Hl2)) as <-.
        rewrite Hr in Hr'. injection Hr' as <-. destruct (Hrel i r Hr) as (HIi & _). by apply (in_sep _ _ _ _ _ _ HIi _ _ _ _ _ _ Hne H1 H2 l).
      + destruct (swho_res i h1 Hw1) as [r Hr]. rewrite (HGi h1 i r Hw1 Hr) in H1. rewrite (HGn h2 Hw2) in H2.
        pose proof (Hfoot h1 i r s1 T1 Hw1 Hr H1 l Hl1) as Hx. by rewrite (Hfootn h2 s2 T2 Hw2 H2 l Hl2 i) in Hx.
      + destruct (swho_res j h2 Hw2) as [r Hr]. rewrite (HGi h2 j r Hw2 Hr) in H2. rewrite (HGn h1 Hw1) in H1.
        pose proof (Hfoot h2 j r s2 T2 Hw2 Hr H2 l Hl2) as Hx. by rewrite (Hfootn h1 s1 T1 Hw1 H1 l Hl1 j) in Hx.
      + rewrite (HGn h1 Hw1) in H1. rewrite (HGn h2 Hw2) in H2. by apply (in_sep _ _ _ _ _ _ HI _ _ _ _ _ _ Hne H1 H2 l). }
  assert (HR' : RelG G' w' σ') by (split_and!; done).
  assert (Hnews : ∀ x, x ∈ concat (map sl_new rs) ++ tr <-> (∃ i r, rs !! i = Some r /\ x ∈ sl_new r) \/ x ∈ tr).
  { intros x. rewrite in_concat_s. apply or_iff_compat_r. change (map sl_new rs) with (sl_new <$> rs). split.
    - intros (i & new & Hi & Hx). rewrite list_lookup_fmap in Hi. apply fmap_Some in Hi as (r & Hr & ->). eauto.
    - intros (i & r & Hr & Hx). exists i, (sl_new r). by rewrite list_lookup_fmap, Hr. }
  assert (Hgrow : ∀ i r, rs !! i = Some r -> ∀ h s Y, ss_set σ !! h = Some (s, Y) -> ∃ Y', ss_set (sl_st r) !! h = Some (s, Y')).
  { intros i r Hr h s Y HY. eapply (sk_new _ _ (Hk i r Hr)). apply elem_of_app. right. by eapply (sk_in _ _ Hs). }
  assert (Hlive0 : ∀ h s Y, ss_set σ !! h = Some (s, Y) -> ∃ Y', ss_set σ' !! h = Some (s, Y')).
  { intros h s Y Hh. destruct (who h) as [j|] eqn:Hw; [|rewrite (Hmn h Hw); eauto].
    destruct (swho_res j h Hw) as [r' Hr']. rewrite (Hmi h j r' Hw Hr'). by apply (Hgrow j r' Hr') in Hh. }
  assert (Hst : ∀ h i r, who h = Some i -> rs !! i = Some r -> sstored (concat (map sl_new rs) ++ tr) h = sstored (sl_new r ++ tr) h).
  { intros h i r Hw Hr. apply (sstored_concat_one _ tr h i).
    - change (map sl_new rs) with (sl_new <$> rs). by rewrite list_lookup_fmap, Hr.
    - intros j new' Hj Hne op r1 Hin Hwr. change (map sl_new rs) with (sl_new <$> rs) in Hj.
      rewrite list_lookup_fmap in Hj. apply fmap_Some in Hj as (r' & Hr' & ->). destruct (Hrs j r' Hr') as [Hh' _].
      assert (Hx : X j h = true) by (eapply sd_writes; [exact Hh'|exact Hin|exact Hwr]). apply who_X in Hw. apply Hne. by eapply sHX. }
  assert (Hsn : ∀ h, who h = None -> sstored (concat (map sl_new rs) ++ tr) h = sstored tr h).
  { intros h Hw. apply sstored_concat_none. intros j new' Hj op r1 Hin Hwr. change (map sl_new rs) with (sl_new <$> rs) in Hj.
    rewrite list_lookup_fmap in Hj. apply fmap_Some in Hj as (r' & Hr' & ->). destruct (Hrs j r' Hr') as [Hh' _].
    assert (Hx : X j h = true) by (eapply sd_writes; [exact Hh'|exact Hin|exact Hwr]). by rewrite (none h Hw j) in Hx. }
  exists σ'. split; [done|]. split_and!.
  - apply (compose_merged X (length starts) sHX sHn); [by rewrite map_length| |].
    + intros h. change (map (λ r, ss_set (sl_st r)) rs) with ((λ r, ss_set (sl_st r)) <$> rs). destruct (who h) as [i|] eqn:Hw; [|by apply Hmn].
      destruct (swho_res i h Hw) as [r Hr]. rewrite list_lookup_fmap, Hr. cbn. by apply (Hmi h i r).
    + intros i mp Hi h Hx. change (map (λ r, ss_set (sl_st r)) rs) with ((λ r, ss_set (sl_st r)) <$> rs) in Hi.
      rewrite list_lookup_fmap in Hi. apply fmap_Some in Hi as (r & Hr & ->). by apply (Hoi i r).
  - split.
    + intros h s Y Hh. rewrite Hnews. destruct (who h) as [i|] eqn:Hw.
      * destruct (swho_res i h Hw) as [r Hr]. rewrite (Hmi h i r Hw Hr) in Hh. rewrite (Hst h i r Hw Hr).
        destruct (sk_in _ _ (Hk i r Hr) _ _ _ Hh) as [-> Hin]. split; [done|]. apply elem_of_app in Hin as [Hin|Hin]; [left; eauto|by right].
      * rewrite (Hmn h Hw) in Hh. rewrite (Hsn h Hw). destruct (sk_in _ _ Hs _ _ _ Hh) as [-> Hin]. split; [done|by right].
    + intros s h [(i & r & Hr & Hin)|Hin]%Hnews.
      * destruct (sk_new _ _ (Hk i r Hr) s h) as [Y HY]; [apply elem_of_app; by left|]. destruct (X i h) eqn:E.
        -- rewrite (Hmi h i r (some i h E) Hr). eauto.
        -- rewrite (Hoi i r Hr h E) in HY. by eapply Hlive0.
      * destruct (sk_new _ _ Hs s h Hin) as [Y HY]. by eapply Hlive0.
    + intros h Hh. destruct (who h) as [i|] eqn:Hw.
      * destruct (swho_res i h Hw) as [r Hr]. rewrite (Hmi h i r Hw Hr) in Hh. rewrite (Hst h i r Hw Hr). by apply (sk_none _ _ (Hk i r Hr)).
      * rewrite (Hmn h Hw) in Hh. rewrite (Hsn h Hw). by apply (sk_none _ _ Hs).
  - by exists G'.
Qed.
End join.

Lemma sbegin_length {K CK U} (papi : psetapi K unit CK U) tr w cs starts C : length starts = length cs -> rtc step (sbegin papi tr w cs starts) C -> length (c_thr C) = length cs.
Proof.
  intros Hlen HC. assert (Hl : length (c_thr (sbegin papi tr w cs starts)) = length cs) by (simpl; rewrite zip_with_length; lia).
  revert Hl. generalize (sbegin papi tr w cs starts), HC. clear. intros C0 HC Hl.
  induction HC as [|x y z Hxy _ IH]; [done|]. apply IH. destruct Hxy as [j t m t2' Hj Hnx]. cbn [c_thr]. by rewrite insert_length.
Qed.

Section sfrun.
Context `{Countable K} {CK U : Type} (fuel : nat) (api : setapi K unit CK U) (papi : psetapi K unit CK U)
  (dig : N -> K -> nat -> N) (ok : list (sop K U * sres) -> sop K U -> Prop) (u0 : U) (Hfuel : 256 <= fuel)
  (Ht : set_type fuel api dig ok) (Hpt : pset_type fuel papi api).

Theorem sfork_ok tr w : sfrun u0 papi api ok tr w ->
  (∃ σ, sfspec dig u0 tr σ /\ ss_usr σ = w_usr w /\
    ∀ op, ok tr op -> ∃ res w' σ', scall api op w = Ret res w' /\ sstep dig σ op res σ') /\
  ∀ cs starts own, spread (w_nxt w) starts -> length starts = length cs ->
    (∀ i c a, cs !! i = Some c -> starts !! i = Some a -> sfine api ok own tr i c tr (from w a)) ->
    (∀ C, rtc step (sbegin papi tr w cs starts) C ->
      ¬ race C /\
      (∀ i t, c_thr C !! i = Some t -> ((∃ hist, returned t hist) \/ runs C t) /\ fresh C t) /\
      (∀ i t c a hist, c_thr C !! i = Some t -> cs !! i = Some c -> starts !! i = Some a -> returned t hist ->
        ∃ w', ssolo api c tr (from w a) hist w' /\ th_usr t = w_usr w' /\
          ∃ new σ σ', hist = new ++ tr /\ sfspec dig u0 tr σ /\ ssteps dig σ new σ')).
Proof.
  intros Hr.
  destruct (set_pack fuel api dig ok Ht) as [HS F FA L Q aop W dfull HF HL Hdig HFA HW Haop HAdd HDel HHas HAll Hok].
  assert (HRel : ∃ σ, sfspec dig u0 tr σ /\ sknows tr σ /\ RefineSet.Rel F L Q w σ).
  { induction Hr as [|tr w op res w' Hr (σ & Hs & Hk & HR) Ho Hc|tr w cs starts own C news n u Hr (σ & Hs & Hk & G & HR) Hsp Hlen Hfine HC Hln Hret Hn].
    - exists (sinit u0). split_and!; [constructor|apply sknows_nil|apply RefineSet.Rel_init].
    - destruct (Hok _ _ Ho) as [Ha Hg].
      destruct (RefineSet.step_ok F L Q HF HL fuel Hfuel dig Hdig FA aop W dfull tt HFA HW Haop api HAdd HDel HHas HAll w σ op HR) as (res' & w2 & σ' & Hc' & Hst & HR').
      { eapply sknows_can; eassumption. }
      rewrite Hc in Hc'. injection Hc' as <- <-. exists σ'. split_and!; [by econstructor|by eapply sknows_step|done].
    - pose proof (sbegin_length _ _ _ _ _ _ Hlen HC) as Hthr.
      assert (Hthr' : length (c_thr C) = length starts) by lia.
      assert (Hres : ∀ i new, news !! i = Some new -> ∃ r : sleft, sl_new r = new /\
        sholding dig F L Q (sXs G own starts i) (sSs G own starts) (mis G own i) (shs G own) σ G (w_mem w) (sl_new r) (sl_st r) (sl_heap r) (sl_w r) /\
        ∀ l, sXs G own starts i l = true -> c_mem C !! l = w_mem (sl_w r) !! l).
      { intros i new Hi. pose proof (lookup_lt_Some _ _ _ Hi) as Hil.
        destruct (lookup_lt_is_Some_2 (c_thr C) i ltac:(lia)) as [t Hti]. destruct (lookup_lt_is_Some_2 cs i ltac:(lia)) as [c Hci].
        destruct (lookup_lt_is_Some_2 starts i ltac:(lia)) as [a Hai].
        destruct (sgos_result fuel api papi dig ok Hfuel F FA L Q aop W dfull HF HL Hdig HFA HW Haop HAdd HDel HHas HAll Hok Hpt
          tr w cs starts own σ G Hk HR Hsp Hfine C i t c a (new ++ tr) HC Hti Hci Hai (Hret i t new Hti Hi))
          as (w' & _ & (new' & σ' & G' & E & Hh) & _ & _ & Hm).
        apply app_inv_tail in E. subst new'. exists (SLeft new σ' G' w'). split_and!; [done|done|]. intros l Hl. apply Hm. by left. }
      destruct (choose _ news Hres) as (rs & Hrl & Hrs).
      assert (Hnews : map sl_new rs = news).
      { apply list_eq. intros i. change (map sl_new rs) with (sl_new <$> rs). rewrite list_lookup_fmap.
        destruct (news !! i) as [new|] eqn:E.
        - pose proof (lookup_lt_Some _ _ _ E) as Hil. rewrite <- Hrl in Hil. destruct (lookup_lt_is_Some_2 rs i Hil) as [r Er].
          rewrite Er. simpl. f_equal. by apply (Hrs i new r E Er).
        - apply lookup_ge_None in E. rewrite (proj2 (lookup_ge_None rs i)) by lia. done. }
      destruct (sjoin_ok dig F L Q tr w σ G Hk HR own starts Hsp rs (c_mem C) n u) as (σ' & Hu & Hm1 & Hk' & HR').
      + lia.
      + intros i r Er. pose proof (lookup_lt_Some _ _ _ Er) as Hil. rewrite Hrl in Hil. destruct (lookup_lt_is_Some_2 news i Hil) as [new E].
        by apply (Hrs i new r E Er).
      + intros l Hl.
        destruct (sgos_good fuel api papi dig ok Hfuel F FA L Q aop W dfull HF HL Hdig HFA HW Haop HAdd HDel HHas HAll Hok Hpt
          tr w cs starts own σ G Hk HR Hsp Hfine C HC) as (_ & _ & Hm). apply Hm.
        intros i _. by rewrite Hl.
      + done.
      + rewrite Hnews in Hk'. exists σ'. split_and!; [|done|done].
        apply (sfspec_join _ _ tr σ news (map sl_st rs)); [done|rewrite map_length; lia| |].
        * intros i new σi Ei Es. change (map sl_st rs) with (sl_st <$> rs) in Es. rewrite list_lookup_fmap in Es.
          apply fmap_Some in Es as (r & Er & ->). destruct (Hrs i new r Ei Er) as (<- & Hh & _). apply Hh.
        * by rewrite map_map. }
  destruct HRel as (σ & Hs & Hk & G & HR). split.
  - exists σ. split_and!; [done|by destruct HR as (_ & _ & ->)|]. intros op Ho. destruct (Hok _ _ Ho) as [Ha Hg].
    destruct (RefineSet.step_ok F L Q HF HL fuel Hfuel dig Hdig FA aop W dfull tt HFA HW Haop api HAdd HDel HHas HAll w σ op) as (res' & w2 & σ' & Hc' & Hst & HR'); [by exists G| |eauto].
    eapply sknows_can; eassumption.
  - intros cs starts own Hsp Hlen Hfine C HC.
    destruct (sgos_ok fuel api papi dig ok Hfuel F FA L Q aop W dfull HF HL Hdig HFA HW Haop HAdd HDel HHas HAll Hok Hpt
      tr w cs starts own σ G Hk HR Hsp Hfine C HC) as (H1 & H2 & H3).
    split_and!; [done|done|]. intros i t c a hist Hi Hc Ha Hret.
    destruct (H3 i t c a hist Hi Hc Ha Hret) as (w' & Hso & (new & σ' & -> & Hst) & Hu & _). exists w'. split_and!; [done|done|].
    by exists new, σ, σ'.
Qed.

Theorem sfork_joins tr w cs starts own C : sfrun u0 papi api ok tr w -> spread (w_nxt w) starts -> length starts = length cs ->
  (∀ i c a, cs !! i = Some c -> starts !! i = Some a -> sfine api ok own tr i c tr (from w a)) ->
  rtc step (sbegin papi tr w cs starts) C ->
  ∃ C' news n, rtc step C C' /\ (∀ u, sfrun u0 papi api ok (concat news ++ tr) (World (c_mem C') n u)) /\ length news = length cs /\
    ∀ i t, c_thr C' !! i = Some t -> ∃ new, news !! i = Some new /\ returned t (new ++ tr).
Proof.
  intros Hr Hsp Hlen Hfine HC. destruct (sfork_ok tr w Hr) as [_ Hg]. specialize (Hg cs starts own Hsp Hlen Hfine).
  destruct (all_return C) as (C' & HC' & Hall).
  { intros C' HC' i t Hi. destruct (Hg C') as (_ & Hrun & _); [by etrans|]. by apply (Hrun i t Hi). }
  assert (HCC : rtc step (sbegin papi tr w cs starts) C') by (by etrans).
  pose proof (sbegin_length _ _ _ _ _ _ Hlen HCC) as Hthr. destruct (Hg C' HCC) as (_ & _ & Hres).
  destruct (choose (λ i t new, returned t (new ++ tr)) (c_thr C')) as (news & Hnl & Hnews).
  { intros i t Hi. destruct (Hall i t Hi) as [hist Hret]. pose proof (lookup_lt_Some _ _ _ Hi) as Hil.
    destruct (lookup_lt_is_Some_2 cs i ltac:(lia)) as [c Hci]. destruct (lookup_lt_is_Some_2 starts i ltac:(lia)) as [a Hai].
    destruct (Hres i t c a hist Hi Hci Hai Hret) as (_ & _ & _ & new & _ & _ & -> & _). by exists new. }
  set (n := above (c_mem C')). pose proof (above_ok (c_mem C')) as Hn.
  exists C', news, n. split_and!; [done| |by rewrite Hnl|].
  - intros u. apply (sfrun_join u0 papi api ok tr w cs starts own C' news n u Hr Hsp Hlen Hfine HCC); [by rewrite Hnl| |exact Hn].
    intros i t new Hi Hni. exact (Hnews i t new Hi Hni).
  - intros i t Hi. pose proof (lookup_lt_Some _ _ _ Hi) as Hil. destruct (lookup_lt_is_Some_2 news i ltac:(lia)) as [new Hni].
    exists new. split; [done|]. exact (Hnews i t new Hi Hni).
Qed.
End sfrun.
