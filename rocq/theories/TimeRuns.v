(** How often each call of a history accesses memory. *)
From Coq Require Import Sorted SpecFloat.
From stdpp Require Import base numbers list gmap.
From Verif Require Prog PAmt PFam ProgSim.
From Verif Require Import GoInt Mem Hash Amt Families BitsFacts Steps Tree Rep Paths Descend Insert Split Delete Remove Core Scan Order Heap Spec SpecFacts HashFacts Client Types Refine RefineSet Instances PClient ConcClient.
From Verif Require Import Guards Levels Shape ShapeRuns DepthSpec Depth MemorySpec Memory MemoryRuns Alloc AllocSpec AllocRuns TimeSpec Time TimeCore TimeTypes Pack TimePack.
Local Open Scope nat_scope.

Section callbacks.
Context {K V CK U : Type}.
Lemma mod_cb_time (f : U -> V -> bool -> U * V) p b : atmost (CK:=CK) 3 (pmod_cb f p b).
Proof.
  unfold pmod_cb. eapply (atmost_bind _ 1 2); [lia|apply atmost_load_kv|]. intros x u. simpl.
  eapply (atmost_bind _ 2 0); [lia|apply atmost_store_val|]. done.
Qed.
Lemma all_cb_time (f : U -> K -> V -> U * V * bool) k p : atmost (CK:=CK) 3 (pall_cb f k p).
Proof.
  unfold pall_cb. eapply (atmost_bind _ 1 2); [lia|apply atmost_load_kv|]. intros x u. simpl.
  eapply (atmost_bind _ 2 0); [lia|apply atmost_store_val|]. done.
Qed.
Lemma set_cb_time (f : U -> K -> U * bool) k : atmost (V:=V) (CK:=CK) 0 (pset_cb f k).
Proof. intros u. done. Qed.
End callbacks.

Lemma len_time {V CK U} r : atmost (V:=V) (CK:=CK) (U:=U) 1 (PFam.Len (Some r)).
Proof. eapply (atmost_bind _ 1 0); [lia|apply atmost_load_root|done]. Qed.
Lemma dep_time {V CK U} r : atmost (V:=V) (CK:=CK) (U:=U) 1 (PFam.Dep (Some r)).
Proof. eapply (atmost_bind _ 1 0); [lia|apply atmost_load_root|]. intros rt. by destruct (_ =? _)%N. Qed.
Lemma cost_then {V CK U A B} (p : Prog.prog V CK U A) (f : A -> B) w : cost (Prog.bind p (λ x, Prog.ret (f x))) w = cost p w.
Proof. rewrite cost_bind. destruct (Prog.run p w); cbn [cost Prog.ret]; lia. Qed.

Section maps.
Context {V U : Type} (zero : V) (fuel : nat) (u0 : U).
Hypothesis Hfuel : 256 <= fuel.
Context `{Countable K} {CK : Type} (papi : pmapapi K V CK U) (api : mapapi K V CK U) (dig : N -> K -> nat -> N).
Variable ok : list (mop K V U * mres V) -> mop K V U -> Prop.
Hypothesis Ht : map_both zero fuel papi api dig ok.

Theorem map_time tr (w : world V CK U) op : mrun api ok u0 tr w -> ok tr op ->
  ∃ n, mtime dig tr op n /\ cost (pmcall papi (Op op)) w <= n.
Proof.
  intros Hr Ho. destruct (map_tpack zero fuel papi api dig ok Ht) as []. destruct HP as [].
  destruct (Refine.run_rel F L Q HF HL Hcell zero fuel Hfuel dig Hdig FS FM sop mdop vs WS WM HFS HFM HWS HWM Hvs Hsop Hmop
    api HSet HMod HDel HGet HVal HPtr HAll ok u0 Hok tr w Hr) as (σ & Hsp & HR).
  destruct (Hok _ _ Ho) as [Hal Hgu].
  assert (Hcan : Refine.can L Q dig WS WM σ op) by (by eapply (Refine.allowed_can L Q zero dig WS WM u0)).
  assert (Hstep : ∀ h, is_Some (ms_map σ !! h) ->
    ∃ G s T, Inv F L 240 Q w G /\ G !! h = Some (s, T) /\ Good F L 240 s w h T /\ ms_map σ !! h = Some (s, dict T) /\
      map fst (leaves T) ≡ₚ elements (stored tr h) /\ (MNew s, RHandle h) ∈ tr).
  { intros h Hlive. destruct (Refine.Rel_handle F L Q w σ h HR Hlive) as (G & s & T & HI & HGh & HQ & HG & Hm & Hmh & Hv & Hu).
    exists G, s, T. split_and!; try done.
    - rewrite (stored_keys dig zero u0 tr σ h s _ Hsp Hmh).
      rewrite (Refine.dict_list F L Hcell _ _ _ _ HG). by rewrite (Refine.ent_keys F L Hcell _ _ _ _ HG).
    - by eapply (mspec_seed dig zero u0 tr σ Hsp). }
  assert (Hins : ∀ F' PF' W pop h k, Refine.alike F L F' -> cheap_fam PF' F' -> goodway L dig F' W -> is_Some (ms_map σ !! h) -> ly_ok L k ->
    Refine.fits dig W σ h k -> cheap pop ->
    ∃ n, (∃ s, (MNew s, RHandle h) ∈ tr /\ n = 7 * depth dig s (elements (stored tr h)) k + 200) /\
      cost (PAmt.insert PF' pop fuel (Some h) k) w <= n).
  { intros F' PF' W pop h k HF' HPF' HW Hlive Hlk Hfits (Hfound & Hnew & Hsplit).
    destruct (Hstep h Hlive) as (G & s & T & HI & HGh & HG & Hmh & Hperm & Hin).
    assert (Hks : (map_to_list (dict T)).*1 ≡ₚ map fst (leaves T)).
    { rewrite (Refine.dict_list F L Hcell _ _ _ _ HG). by rewrite (Refine.ent_keys F L Hcell _ _ _ _ HG). }
    assert (Hfree : (∀ p, (k, p) ∉ leaves T) -> free dig W s (map_to_list (dict T)).*1 k).
    { intros Habs. destruct Hfits as (s' & m & Hm' & Hx). rewrite Hmh in Hm'. injection Hm' as <- <-.
      destruct Hx as [[a Ha]|Hx]; [|done]. apply (Refine.dict_some F L Hcell _ _ _ _ _ _ HG) in Ha. by apply Habs in Ha. }
    pose proof (Refine.way_clear F L dig Hdig F' W s w h T k _ HF' HW Hlk HG Hks Hfree) as Hre.
    pose proof HF' as (HFok & Hnib & HL').
    eexists. split; [by exists s|]. rewrite <- (depth_perm dig s _ _ k Hperm).
    apply (insert_time F' L s HFok HL' dig) ; try done; [|by apply HPF'|by apply HPF'|by apply (Good_alike F F' L HF')].
    intros s' k' d'. by rewrite (Hnib s'). }
  assert (Hlook : ∀ c h k p, is_Some (ms_map σ !! h) ->
    (∀ s T, Good F L 240 s w h T -> cost p w <= depth dig s (map fst (leaves T)) k + c) ->
    ∃ n, (∃ s, (MNew s, RHandle h) ∈ tr /\ n = depth dig s (elements (stored tr h)) k + c) /\ cost (A:=mres V) p w <= n).
  { intros c h k p Hlive Hc. destruct (Hstep h Hlive) as (G & s & T & HI & HGh & HG & Hmh & Hperm & Hin).
    eexists. split; [by exists s|]. rewrite <- (depth_perm dig s _ _ k Hperm). by apply Hc. }
  destruct HPF as [HPF Hkey].
  destruct op as [s|h k v|h k f|h k|h k|h k|h k|h|h|h f|p|p v]; cbn [mtime pmcall]; simpl in Hcan.
  - exists 2. split; [done|]. apply atmost_cost. done.
  - destruct Hcan as (Hlive & Hlk & Hfits). rewrite HPSet, (cost_then _ (λ _, RUnit)). by apply (Hins FS PFS WS).
  - destruct Hcan as (Hlive & Hlk & Hfits). rewrite HPMod, (cost_then _ (λ _, RUnit)). apply (Hins FM PFM WM); try done.
    apply Hpmdop, mod_cb_time.
  - destruct Hcan as (Hlive & Hlk). destruct (Hstep h Hlive) as (G & s & T & HI & HGh & HG & Hmh & Hperm & Hin).
    eexists. split; [by exists s|]. rewrite <- (depth_perm dig s _ _ k Hperm).
    rewrite HPDel, (cost_then _ (λ _, RUnit)). by apply (delete_time F L s HF HL dig Hdig PF HPF Hkey).
  - destruct Hcan as (Hlive & Hlk). apply Hlook; [done|]. intros s T HG. rewrite HPGet, (cost_then _ (λ x, RGet x.1 x.2)).
    by apply (get_time F L s HF HL dig Hdig PF HPF Hkey).
  - destruct Hcan as (Hlive & Hlk). apply Hlook; [done|]. intros s T HG. rewrite HPVal, (cost_then _ (λ x, RVal x)).
    by apply (val_time F L s HF HL dig Hdig PF HPF Hkey).
  - destruct Hcan as (Hlive & Hlk). apply Hlook; [done|]. intros s T HG. rewrite HPPtr, (cost_then _ (λ p, RPtr (match p with Nil => None | At a => Some a end))).
    pose proof (ptr_time F L s HF HL dig Hdig PF HPF Hkey w h T k fuel HG Hlk Hfuel). lia.
  - exists 1. split; [done|]. rewrite (cost_then _ RLen). apply atmost_cost, len_time.
  - exists 1. split; [done|]. rewrite (cost_then _ RDep). apply atmost_cost, dep_time.
  - destruct (Hstep h) as (G & s & T & HI & HGh & HG & Hmh & Hperm & Hin); [tauto|].
    eexists. split; [by exists s|]. rewrite <- (branches_perm dig s _ _ Hperm), <- Hperm, map_length.
    rewrite HPAll, (cost_then _ (λ _, RUnit)). unfold PAmt.all_map. rewrite (cost_then _ (λ _, tt)).
    pose proof (Good_node _ _ _ _ _ _ _ HG) as Hnode. destruct T as [|a cs]; [done|].
    pose proof (good_nodes F L s w h a cs dig Hdig HG) as Hnodes.
    assert (Hscan : cost (PAmt.scan (PAmt.act_map PF (pall_cb f)) fuel (hole (K:=K) h [])) w + 1 <=
        2 * length (nodes [] (Node a cs)) + (2 + 4) * length (leaves (Node a cs))).
    { apply (scan_time L (PAmt.act_map PF (pall_cb f)) (act_map F (all_cb f)) 4) with
        (T := Node a cs) (I := λ es w, (∀ e, e ∈ es -> e ∈ leaves (Node a cs)) /\ Inv F L 240 Q w G) (rest := []); try done.
      - intros iv. unfold PAmt.act_map, act_map. apply Prog.sim_bind; [apply (ProgSim.fs_key _ _ HPF)|]. intros k.
        destruct (lk_ptr iv); [apply Prog.sim_panic|apply sim_all_cb].
      - intros iv. unfold PAmt.act_map. eapply (atmost_bind _ 1 3); [lia|apply Hkey|]. intros k.
        destruct (lk_ptr iv); [done|apply all_cb_time].
      - intros es w0 [_ H0]. destruct (in_good _ _ _ _ _ _ H0 _ _ _ HGh) as [_ HG0]. by eapply Good_carries.
      - intros k p es w0 w0' [Hsub H0] Hrun. split; [intros e He; apply Hsub; by right|].
        destruct (in_good _ _ _ _ _ _ H0 _ _ _ HGh) as [_ HG0].
        destruct (Good_ok _ _ _ _ _ _ _ _ _ HG0 (Hsub _ (elem_of_list_here _ _))) as [Hokk Hc]. pose proof Hc as Hc'.
        unfold cell in Hc'. rewrite Hcell in Hc'. destruct Hc' as (a' & v & -> & Ha).
        unfold act_map in Hrun. rewrite (bind_Ret _ _ _ _ _ (fo_key _ _ HF k (At a') w0 Hokk Hc)) in Hrun.
        rewrite (fo_ptr _ _ HF), (Refine.all_cb_run _ _ _ _ _ _ Ha) in Hrun. injection Hrun as _ <-.
        by eapply Inv_store.
      - destruct HG as [HM _]. pose proof (mi_hgt _ _ _ _ _ _ HM). lia.
      - split; [|done]. intros e. by rewrite app_nil_r. }
    cbn [nodes length] in Hscan. fold (csn (K:=K) [] cs) in Hscan. rewrite Hnodes in Hscan.
    change (hole (K:=K) h []) with (RootRef h) in Hscan. lia.
  - exists 1. split; [done|]. apply atmost_cost. eapply (atmost_bind _ 1 0); [lia|apply atmost_load_kv|]. done.
  - exists 2. split; [done|]. apply atmost_cost. eapply (atmost_bind _ 2 0); [lia|apply atmost_store_val|]. done.
Qed.
End maps.

Section sets.
Context {U : Type} (fuel : nat) (u0 : U).
Hypothesis Hfuel : 256 <= fuel.
Context `{Countable K} {CK : Type} (papi : psetapi K unit CK U) (api : setapi K unit CK U) (dig : N -> K -> nat -> N).
Variable ok : list (sop K U * sres) -> sop K U -> Prop.
Hypothesis Ht : set_both fuel papi api dig ok.

Theorem set_time tr (w : world unit CK U) op : srun api ok u0 tr w -> ok tr op ->
  ∃ n, stime dig tr op n /\ cost (pscall papi op) w <= n.
Proof.
  intros Hr Ho. destruct (set_tpack fuel papi api dig ok Ht) as []. destruct HP as [].
  destruct (RefineSet.run_rel F L Q HF HL fuel Hfuel dig Hdig FA aop W dfull tt HFA HW Haop api HAdd HDel HHas HAll ok u0 Hok tr w Hr)
    as (σ & Hsp & HR).
  destruct (Hok _ _ Ho) as [Hal Hgu].
  assert (Hcan : RefineSet.can L Q dig W dfull σ op) by (by eapply (RefineSet.allowed_can L Q dig W dfull u0)).
  assert (Hstep : ∀ h, is_Some (ss_set σ !! h) ->
    ∃ G s T, Inv F L 240 Q w G /\ G !! h = Some (s, T) /\ Good F L 240 s w h T /\ ss_set σ !! h = Some (s, RefineSet.keys T) /\
      map fst (leaves T) ≡ₚ elements (sstored tr h) /\ (SNew s, THandle h) ∈ tr).
  { intros h Hlive. destruct (RefineSet.Rel_handle F L Q w σ h HR Hlive) as (G & s & T & HI & HGh & HQ & HG & Hm & Hmh & Hu).
    destruct (sspec_stored dig u0 tr σ Hsp h s _ Hmh) as [HX Hin].
    exists G, s, T. split_and!; try done. rewrite <- HX. symmetry. exact (RefineSet.keys_list F L _ _ _ _ HG). }
  destruct HPF as [HPF Hkey].
  destruct op as [s|h k|h k|h k|h|h|h f]; cbn [stime pscall]; simpl in Hcan.
  - exists 2. split; [done|]. apply atmost_cost. done.
  - destruct Hcan as (Hlive & Hlk & Hfits). rewrite HPAdd, (cost_then _ (λ _, TUnit)).
    destruct (Hstep h Hlive) as (G & s & T & HI & HGh & HG & Hmh & Hperm & Hin).
    assert (Hre : clear FA L 240 s T k).
    { eapply (Refine.way_clear F L dig Hdig FA W s w h T k _ HFA HW Hlk HG (RefineSet.keys_list F L _ _ _ _ HG)).
      intros Habs. destruct Hfits as (s' & X & HX & Hx). rewrite Hmh in HX. injection HX as <- <-.
      destruct Hx as [Hx|Hx]; [|done]. apply RefineSet.keys_in in Hx as [p Hx]. by apply Habs in Hx. }
    pose proof HFA as (HFok & Hnib & HL'). destruct (Hpaop k) as (Hfound & Hnew & Hsplit).
    eexists. split; [by exists s|]. rewrite <- (depth_perm dig s _ _ k Hperm).
    apply (insert_time FA L s HFok HL' dig) ; try done; [|by apply HPFA|by apply HPFA|by apply (Good_alike F FA L HFA)].
    intros s' k' d'. by rewrite (Hnib s').
  - destruct Hcan as (Hlive & Hlk & Hdf). destruct (Hstep h Hlive) as (G & s & T & HI & HGh & HG & Hmh & Hperm & Hin).
    eexists. split; [by exists s|]. rewrite <- (depth_perm dig s _ _ k Hperm).
    rewrite HPDel, (cost_then _ (λ _, TUnit)). by apply (delete_time F L s HF HL dig Hdig PF HPF Hkey).
  - destruct Hcan as (Hlive & Hlk). destruct (Hstep h Hlive) as (G & s & T & HI & HGh & HG & Hmh & Hperm & Hin).
    eexists. split; [by exists s|]. rewrite <- (depth_perm dig s _ _ k Hperm).
    rewrite HPHas, (cost_then _ THas). by apply (has_time F L s HF HL dig Hdig PF HPF Hkey).
  - exists 1. split; [done|]. rewrite (cost_then _ TLen). apply atmost_cost, len_time.
  - exists 1. split; [done|]. rewrite (cost_then _ TDep). apply atmost_cost, dep_time.
  - destruct (Hstep h) as (G & s & T & HI & HGh & HG & Hmh & Hperm & Hin); [tauto|].
    eexists. split; [by exists s|]. rewrite <- (branches_perm dig s _ _ Hperm), <- Hperm, map_length.
    rewrite HPAll, (cost_then _ (λ _, TUnit)). unfold PAmt.all_set. rewrite (cost_then _ (λ _, tt)).
    pose proof (Good_node _ _ _ _ _ _ _ HG) as Hnode. destruct T as [|a cs]; [done|].
    pose proof (good_nodes F L s w h a cs dig Hdig HG) as Hnodes.
    assert (Hscan : cost (PAmt.scan (PAmt.act_set PF (pset_cb f)) fuel (hole (K:=K) h [])) w + 1 <=
        2 * length (nodes [] (Node a cs)) + (2 + 1) * length (leaves (Node a cs))).
    { apply (scan_time L (PAmt.act_set PF (pset_cb f)) (act_set F (set_cb f)) 1) with
        (T := Node a cs) (I := λ es w, (∀ e, e ∈ es -> e ∈ leaves (Node a cs)) /\ Inv F L 240 Q w G) (rest := []); try done.
      - intros iv. unfold PAmt.act_set, act_set. apply Prog.sim_bind; [apply (ProgSim.fs_key _ _ HPF)|]. intros k.
        apply sim_set_cb.
      - intros iv. unfold PAmt.act_set. eapply (atmost_bind _ 1 0); [lia|apply Hkey|]. intros k. apply set_cb_time.
      - intros es w0 [_ H0]. destruct (in_good _ _ _ _ _ _ H0 _ _ _ HGh) as [_ HG0]. by eapply Good_carries.
      - intros k p es w0 w0' [Hsub H0] Hrun. split; [intros e He; apply Hsub; by right|].
        destruct (in_good _ _ _ _ _ _ H0 _ _ _ HGh) as [_ HG0].
        destruct (Good_ok _ _ _ _ _ _ _ _ _ HG0 (Hsub _ (elem_of_list_here _ _))) as [Hokk Hc].
        unfold act_set in Hrun. rewrite (bind_Ret _ _ _ _ _ (fo_key _ _ HF k p w0 Hokk Hc)) in Hrun.
        injection Hrun as _ <-. by apply Inv_usr.
      - destruct HG as [HM _]. pose proof (mi_hgt _ _ _ _ _ _ HM). lia.
      - split; [|done]. intros e. by rewrite app_nil_r. }
    cbn [nodes length] in Hscan. fold (csn (K:=K) [] cs) in Hscan. rewrite Hnodes in Hscan.
    change (hole (K:=K) h []) with (RootRef h) in Hscan. lia.
Qed.
End sets.
