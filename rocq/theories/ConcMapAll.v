(** Goroutines with maps: every reachable state. *)
From stdpp Require Import base numbers list gmap relations.
From Verif Require Import GoInt Mem Hash Prog PAmt PFam ProgSim Amt Families BitsFacts Steps Tree Rep Paths Descend Insert Split Delete Remove Core Scan Order Heap Spec SpecFacts HashFacts Client Types Refine RefineSet Instances Pack Runs Guards PClient ConcSpec Conc ReadOnly ConcClient ForkSpec Knows ConcMap.
Local Open Scope nat_scope.

Lemma pmap_type_sim {K V CK U} (zero : V) fuel (papi : pmapapi K V CK U) api : pmap_type zero fuel papi api -> mapi_sim papi api.
Proof.
  destruct 1.
  - apply StringMap_sim.
  - apply BytesMap_sim.
  - apply IntMap_sim.
  - apply ArrMap_sim.
  - apply Map_sim.
Qed.
Lemma pmap_type_reads {K V CK U} (zero : V) fuel (papi : pmapapi K V CK U) api : pmap_type zero fuel papi api -> mapi_reads papi.
Proof.
  destruct 1.
  - apply StringMap_reads.
  - apply BytesMap_reads.
  - apply IntMap_reads.
  - apply ArrMap_reads.
  - apply Map_reads.
Qed.
Lemma pset_type_sim {K CK U} fuel (papi : psetapi K unit CK U) api : pset_type fuel papi api -> sapi_sim papi api.
Proof.
  destruct 1.
  - apply StringSet_sim.
  - apply BytesSet_sim.
  - apply IntSet_sim.
  - apply ArrSet_sim.
  - apply Set_sim.
Qed.
Lemma pset_type_reads {K CK U} fuel (papi : psetapi K unit CK U) api : pset_type fuel papi api -> sapi_reads papi.
Proof.
  destruct 1.
  - apply StringSet_reads.
  - apply BytesSet_reads.
  - apply IntSet_reads.
  - apply ArrSet_reads.
  - apply Set_reads.
Qed.

Lemma zip_lookup {A B C} (f : A -> B -> C) (l : list A) (k : list B) i a b : l !! i = Some a -> k !! i = Some b -> zip_with f l k !! i = Some (f a b).
Proof. intros H1 H2. by rewrite lookup_zip_with, H1, H2. Qed.

Section gos.
Context `{Countable K} {HS V CK U : Type}.
Variables (zero : V) (fuel : nat) (api : mapapi K V CK U) (papi : pmapapi K V CK U) (dig : N -> K -> nat -> N)
  (ok : list (mop K V U * mres V) -> mop K V U -> Prop) (u0 : U) (Hfuel : 256 <= fuel).
Variables (F FS FM : fam K HS V CK U) (L : layout K V CK) (Q : N -> Prop)
    (sop : K -> V -> insop V CK U) (mdop : K -> (ptr -> bool -> M V CK U unit) -> insop V CK U)
    (vs : V -> V) (WS WM : N -> K -> K -> nat -> Prop)
    (HF : fam_ok F L) (HL : laws F L) (Hcell : ly_cell L = true)
    (Hdig : ∀ s k d, nib F s k d = dig s k d)
    (HFS : alike F L FS) (HFM : alike F L FM)
    (HWS : goodway L dig FS WS) (HWM : goodway L dig FM WM)
    (Hvs : ∀ s k ck d, WS s k ck d -> ∀ v, vs v = v)
    (Hsop : ∀ k v, io_found (sop k v) = (λ iv, Mem.store_val (lk_ptr iv) v) /\
       io_new (sop k v) = cellnew L v k /\ io_split (sop k v) = cellnew L (vs v) k)
    (Hmop : ∀ k f,
       io_found (mdop k f) = (λ iv, match lk_ptr iv with Nil => Mem.panic | At p => f (At p) true end) /\
       io_new (mdop k f) = modnew L zero k f /\ io_split (mdop k f) = modnew L zero k f)
    (HSet : ∀ (oh : option loc) k v, ma_Set api oh k v = insert FS (sop k v) fuel oh k)
    (HMod : ∀ (oh : option loc) k f, ma_Mod api oh k f = insert FM (mdop k f) fuel oh k)
    (HDel : ∀ (oh : option loc) k, ma_Del api oh k = delete F fuel oh k)
    (HGet : ∀ (oh : option loc) k, ma_Get api oh k = get F fuel zero oh k)
    (HVal : ∀ (oh : option loc) k, ma_Val api oh k = val F fuel zero oh k)
    (HPtr : ∀ (oh : option loc) k, ma_Ptr api oh k = ptr_of F fuel oh k)
    (HAll : ∀ (oh : option loc) f, ma_All api oh f = all_map F fuel oh f)
    (Hok : ∀ tr op, ok tr op -> mallowed (ly_ok L) Q tr op /\ ins_guard dig WS WM tr op).
Hypothesis Hpt : pmap_type zero fuel papi api.
Variables (tr : list (mop K V U * mres V)) (w : world V CK U) (cs : list (client K V U)) (starts : list loc) (own : positive -> option nat).
Variables (σ : mstate K V U) (G : gmap loc (N * tree K)).
Hypothesis (Hs : knows tr σ) (HR : Refine.RelG F L Q G w σ).
Hypothesis (Hsp : spread (w_nxt w) starts) (Hlen : length starts = length cs).
Hypothesis Hfine : ∀ i c a, cs !! i = Some c -> starts !! i = Some a -> fine api ok own tr i c tr (from w a).
Local Notation X := (Xs tr G own starts).
Local Notation Sb := (Ss tr G own starts).
Local Notation mi := (mis G own).
Local Notation sh := (shs G own).
Local Notation held := (held zero dig F L Q).
Local Notation ps := (zip_with (λ c a, (accesses papi c tr, from w a)) cs starts).

Lemma gos_X : ∀ i j l, X i l = true -> X j l = true -> i = j.
Proof. eapply Xs_fun; eassumption. Qed.
Lemma gos_Sb : ∀ i l, X i l = true -> ¬ Sb l = true.
Proof. intros i l Hl. by rewrite (Xs_Ss _ _ _ _ i l Hl). Qed.
Lemma gos_m0 : ms_map σ = (λ x : N * tree K, (x.1, Refine.dict x.2)) <$> G.
Proof. apply HR. Qed.
Lemma gos_client i c a : cs !! i = Some c -> starts !! i = Some a ->
  safe (λ l, X i l = true) (λ l, Sb l = true) (accesses papi c tr) (from w a) /\
  ∀ hist w', run (accesses papi c tr) (from w a) = Ret hist w' -> solo api c tr (from w a) hist w' /\
    held (X i) Sb (mi i) sh tr σ G (w_mem w) hist w'.
Proof.
  intros Hc Ha. pose proof (pmap_type_sim _ _ _ _ Hpt) as Hsim. pose proof (pmap_type_reads _ _ _ _ Hpt) as Hreads.
  eapply (client_ok zero fuel api dig ok u0 Hfuel F FS FM L Q sop mdop vs WS WM HF HL Hcell Hdig HFS HFM HWS HWM Hvs Hsop Hmop
    HSet HMod HDel HGet HVal HPtr HAll Hok (X i) Sb (mi i) sh (Xs_Ss _ _ _ _ i) tr σ G (w_mem w) Hs gos_m0 papi).
  - intros c'. by apply sim_mcall.
  - intros c'. by apply ro_mcall.
  - intros h. by eapply mis_ok.
  - intros h. by eapply vis_ok.
  - eapply held_start; eassumption.
  - by apply Hfine.
Qed.
Lemma gos_good C : rtc step (begin papi tr w cs starts) C -> good (λ i l, X i l = true) (λ l, Sb l = true) (w_mem w) ps C.
Proof.
  intros HC. eapply steps_good; [exact gos_X|exact gos_Sb| |exact HC]. split_and!; simpl.
  - by rewrite !zip_with_length.
  - intros i t p0 w0 Hi Hp. apply lookup_zip_with_Some in Hp as (c & a & [= -> ->] & Hc & Ha).
    rewrite (zip_lookup _ _ _ _ _ _ Hc Ha) in Hi. injection Hi as <-. exists (from w a). split; try done. by apply (gos_client i c a).
  - done.
Qed.
Lemma gos_result C i t c a hist : rtc step (begin papi tr w cs starts) C ->
  c_thr C !! i = Some t -> cs !! i = Some c -> starts !! i = Some a -> returned t hist ->
  ∃ w', solo api c tr (from w a) hist w' /\ held (X i) Sb (mi i) sh tr σ G (w_mem w) hist w' /\
    th_nxt t = w_nxt w' /\ th_usr t = w_usr w' /\ ∀ l, X i l = true \/ Sb l = true -> c_mem C !! l = w_mem w' !! l.
Proof.
  intros HC Hi Hc Ha Hret.
  destruct (good_result _ _ _ _ _ _ _ _ _ _ (gos_good C HC) Hi (zip_lookup _ _ _ _ _ _ Hc Ha) Hret) as (w' & Hrun & Hn & Hu & Hm).
  destruct (gos_client i c a Hc Ha) as [_ Hcl2]. destruct (Hcl2 _ _ Hrun) as [Hso Hh]. by exists w'.
Qed.
Lemma gos_ok C : rtc step (begin papi tr w cs starts) C ->
  ¬ race C /\
  (∀ i t, c_thr C !! i = Some t -> ((∃ hist, returned t hist) \/ runs C t) /\ fresh C t) /\
  (∀ i t c a hist, c_thr C !! i = Some t -> cs !! i = Some c -> starts !! i = Some a -> returned t hist ->
    ∃ w', solo api c tr (from w a) hist w' /\ (∃ new σ', hist = new ++ tr /\ msteps dig zero σ new σ') /\ th_usr t = w_usr w' /\
      ∀ c', ok hist (the_op c') -> looks c' -> uses own tr i hist c' ->
        ∃ r u', mcall api (the_op c') w' = Ret r (World (w_mem w') (w_nxt w') u') /\
          mcall api (the_op c') (World (c_mem C) (th_nxt t) (th_usr t)) = Ret r (World (c_mem C) (th_nxt t) u')).
Proof.
  intros HC. pose proof (gos_good C HC) as Hg. split_and!.
  - eapply good_no_race; [exact gos_X|exact gos_Sb|exact Hg].
  - intros i t Hi. eapply good_runs; [exact Hg|exact Hi].
  - intros i t c a hist Hi Hc Ha Hret. destruct (gos_result C i t c a hist HC Hi Hc Ha Hret) as (w' & Hso & Hh & Hn & Hu & Hm).
    exists w'. split_and!; [done| |done|].
    + destruct Hh as (new & σ' & G' & -> & Hh). exists new, σ'. split; [done|]. apply Hh.
    + intros c' Ho Hl Huse.
      pose proof (pmap_type_sim _ _ _ _ Hpt) as Hsim. pose proof (pmap_type_reads _ _ _ _ Hpt) as Hreads.
      assert (Hvi : ∀ i h, visible own tr i h -> mi i h = true \/ sh h = true) by (eapply vis_ok; eassumption).
      assert (Hin : op_in (λ l, X i l || Sb l) (λ h, mi i h || sh h) (the_op c') /\ ∀ σ h, ¬ Refine.touches σ (the_op c') h).
      { destruct Hh as (new & σ' & G' & -> & Hh). pose proof (hd_pmine _ _ _ _ _ _ _ _ _ _ _ _ _ _ _ _ _ Hh) as H4.
        pose proof (hd_pshared _ _ _ _ _ _ _ _ _ _ _ _ _ _ _ _ _ Hh) as H5.
        assert (Hv : ∀ h, visible own tr i h -> mi i h || sh h = true) by (intros h Hh'; by apply orb_true_iff, Hvi).
        destruct c' as [[s|h k v|h k f|h k|h k|h k|h k|h|h|h f|p|p v]|h f]; simpl in *; auto; try done.
        destruct Huse as (h & k & Hin & Hx). split; [|auto]. apply orb_true_iff. destruct (Hvi _ _ Hx); eauto. }
      destruct Hin as [Hin Hnt].
      destruct (call_look zero fuel api dig ok u0 Hfuel F FS FM L Q sop mdop vs WS WM HF HL Hcell Hdig HFS HFM HWS HWM Hvs Hsop Hmop
        HSet HMod HDel HGet HVal HPtr HAll Hok (X i) Sb (mi i) sh (Xs_Ss _ _ _ _ i) tr σ G (w_mem w) Hs gos_m0 hist w' (the_op c') Hh Ho
        (sim_mcall papi api c' Hsim) (ro_mcall papi c' Hreads Hl) Hin Hnt)
        as [_ (r & w2 & Hcall & _ & Hm2)].
      exists r, (w_usr w2). split.
      * specialize (Hm2 (w_mem w') (λ l _, eq_refl)). destruct w'. exact Hm2.
      * rewrite Hn, Hu. apply Hm2. intros l. apply Hm.
Qed.
End gos.

Section goroutines.
Context `{Countable K} {V CK U : Type} (zero : V) (fuel : nat) (api : mapapi K V CK U) (papi : pmapapi K V CK U)
  (dig : N -> K -> nat -> N) (ok : list (mop K V U * mres V) -> mop K V U -> Prop) (u0 : U) (Hfuel : 256 <= fuel)
  (Ht : map_type zero fuel api dig ok) (Hpt : pmap_type zero fuel papi api).
Variables (tr : list (mop K V U * mres V)) (w : world V CK U) (cs : list (client K V U)) (starts : list loc) (own : positive -> option nat).
Hypothesis (Hr : mrun api ok u0 tr w) (Hsp : spread (w_nxt w) starts) (Hlen : length starts = length cs).
Hypothesis Hfine : ∀ i c a, cs !! i = Some c -> starts !! i = Some a -> fine api ok own tr i c tr (from w a).

Theorem goroutines_ok C : rtc step (begin papi tr w cs starts) C ->
  ¬ race C /\
  (∀ i t, c_thr C !! i = Some t -> ((∃ hist, returned t hist) \/ runs C t) /\ fresh C t) /\
  (∀ i t c a hist, c_thr C !! i = Some t -> cs !! i = Some c -> starts !! i = Some a -> returned t hist ->
    ∃ w', solo api c tr (from w a) hist w' /\ (∃ σ, mspec dig zero u0 hist σ) /\ th_usr t = w_usr w' /\
      ∀ c', ok hist (the_op c') -> looks c' -> uses own tr i hist c' ->
        ∃ r u', mcall api (the_op c') w' = Ret r (World (w_mem w') (w_nxt w') u') /\
          mcall api (the_op c') (World (c_mem C) (th_nxt t) (th_usr t)) = Ret r (World (c_mem C) (th_nxt t) u')).
Proof.
  intros HC.
  destruct (map_pack zero fuel api dig ok Ht) as [HS F FS FM L Q sop mdop vs WS WM HF HL Hcell Hdig HFS HFM HWS HWM Hvs Hsop Hmop Hearly HSet HMod HDel HGet HVal HPtr HAll Hok _].
  assert (HRel : ∃ σ, mspec dig zero u0 tr σ /\ Refine.Rel F L Q w σ).
  { apply (Refine.run_rel F L Q HF HL Hcell zero fuel Hfuel dig Hdig FS FM sop mdop vs WS WM
      HFS HFM HWS HWM Hvs Hsop Hmop api HSet HMod HDel HGet HVal HPtr HAll ok u0 Hok tr w Hr). }
  destruct HRel as (σ & Hs & G & HR).
  destruct (gos_ok zero fuel api papi dig ok u0 Hfuel F FS FM L Q sop mdop vs WS WM HF HL Hcell Hdig HFS HFM HWS HWM Hvs Hsop Hmop
    HSet HMod HDel HGet HVal HPtr HAll Hok Hpt tr w cs starts own σ G (mspec_knows _ _ _ _ _ Hs) HR Hsp Hfine C HC) as (H1 & H2 & H3).
  split_and!; [done|done|]. intros i t c a hist Hi Hc Ha Hret.
  destruct (H3 i t c a hist Hi Hc Ha Hret) as (w' & Hso & (new & σ' & -> & Hst) & Hrest). exists w'. split_and!; [done| |apply Hrest|apply Hrest].
  exists σ'. by eapply mspec_steps.
Qed.

Lemma solo_fun c : ∀ tr (w : world V CK U) h1 h2 w1 w2, solo api c tr w h1 w1 -> solo api c tr w h2 w2 -> h1 = h2 /\ w1 = w2.
Proof.
  clear. induction c as [|c k IH]; intros tr w h1 h2 w1 w2; simpl.
  - by intros [-> ->] [-> ->].
  - intros (r & w' & Hr & Hs) (r' & w'' & Hr' & Hs'). rewrite Hr in Hr'. injection Hr' as <- <-. by eapply IH.
Qed.
Theorem goroutines_agree C1 C2 i t1 t2 hist1 hist2 :
  rtc step (begin papi tr w cs starts) C1 -> rtc step (begin papi tr w cs starts) C2 ->
  c_thr C1 !! i = Some t1 -> c_thr C2 !! i = Some t2 -> returned t1 hist1 -> returned t2 hist2 ->
  hist1 = hist2 /\ th_usr t1 = th_usr t2.
Proof.
  intros HC1 HC2 H1 H2 Hr1 Hr2.
  assert (Hn : ∀ C, rtc step (begin papi tr w cs starts) C -> length (c_thr C) = length cs).
  { intros C HC. assert (Hl : length (c_thr (begin papi tr w cs starts)) = length cs) by (simpl; rewrite zip_with_length; lia).
    revert Hl. generalize (begin papi tr w cs starts), HC. clear. intros C0 HC Hl.
    induction HC as [|x y z Hxy _ IH]; [done|]. apply IH. destruct Hxy as [j t m t2' Hj Hnx]. cbn [c_thr]. by rewrite insert_length. }
  assert (Hi : i < length cs) by (rewrite <- (Hn _ HC1); by eapply lookup_lt_Some).
  destruct (lookup_lt_is_Some_2 cs i Hi) as [c Hc]. rewrite <- Hlen in Hi. destruct (lookup_lt_is_Some_2 starts i Hi) as [a Ha].
  destruct (goroutines_ok C1 HC1) as (_ & _ & Hg1). destruct (goroutines_ok C2 HC2) as (_ & _ & Hg2).
  destruct (Hg1 i t1 c a hist1 H1 Hc Ha Hr1) as (w1 & Hs1 & _ & Hu1 & _). destruct (Hg2 i t2 c a hist2 H2 Hc Ha Hr2) as (w2 & Hs2 & _ & Hu2 & _).
  destruct (solo_fun _ _ _ _ _ _ _ Hs1 Hs2) as [-> ->]. by rewrite Hu1, Hu2.
Qed.
End goroutines.
