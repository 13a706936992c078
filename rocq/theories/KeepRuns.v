(** Which entries maps keep after Del. *)
From stdpp Require Import base numbers list gmap relations.
From Verif Require Import GoInt Mem Hash Amt Families BitsFacts Steps Tree Rep Paths Descend Insert Split Delete Remove Core Order Heap Spec SpecFacts Guards Client Types Refine RefineSet Instances Pack Levels Shape Observe ObserveFacts ShapeRuns KeepSpec Keep.
Local Open Scope nat_scope.

Section run.
Context {V U : Type} (zero : V) (fuel : nat) (u0 : U).
Hypothesis Hfuel : 256 <= fuel.
Context `{Countable K} {CK : Type} (api : mapapi K V CK U) (dig : N -> K -> nat -> N).
Variable ok : list (mop K V U * mres V) -> mop K V U -> Prop.
Hypothesis Ht : map_type zero fuel api dig ok.
Implicit Types (tr : list (mop K V U * mres V)) (w : world V CK U) (h : loc) (k : K).

Lemma stored_kept tr w h k b w0 : mrun api ok u0 tr w -> ok tr (MPtr h k) ->
  mcall api (MPtr h k) w = Ret (RPtr (Some b)) w0 -> keeps (w_mem w) h b.
Proof.
  intros Hr Ho Ep. destruct (map_pack zero fuel api dig ok Ht) as [].
  destruct (Refine.run_rel F L Q HF HL Hcell zero fuel Hfuel dig Hdig FS FM sop mdop vs WS WM HFS HFM HWS HWM Hvs Hsop Hmop
    api HSet HMod HDel HGet HVal HPtr HAll ok u0 Hok tr w Hr) as (σ & Hsp & HR).
  destruct (Hok _ _ Ho) as [Hal Hgu].
  assert (Hcan : Refine.can L Q dig WS WM σ (MPtr h k)) by (by eapply (Refine.allowed_can L Q zero dig WS WM u0)).
  destruct Hcan as [Hlive Hkok].
  destruct (Refine.Rel_handle F L Q w σ h HR Hlive) as (G & s & T & HI & HGh & HQ & HG & Hm & Hmh & Hv & Hu).
  unfold mcall in Ep. rewrite HPtr in Ep.
  apply bind_inv_Ret in Ep as (x & w2 & Ep & E). injection E as E <-.
  destruct x as [|b']; [discriminate E|]. injection E as ->. unfold ptr_of in Ep.
  destruct (find_spec F L HF 240 s (le_n 240) HL w h _ k fuel HG Hkok Hfuel) as [(p & Hp & Ef)|[_ Ef]];
    rewrite (bind_Ret _ _ _ _ _ Ef) in Ep; [|discriminate Ep].
  destruct (lk_ptr (ly_leaf L k p)) as [|b''] eqn:El; [discriminate Ep|]. injection Ep as ->.
  destruct HG as [[(rt & Hrt & _ & Hrep & _) _ _ _] _].
  destruct (rep_keeps L (w_mem w) T k p b El 0 (rt_link rt) Hrep Hp) as (c & Hc & Hk).
  apply rtc_l with c; [|exact Hk]. unfold points. rewrite Hrt. by left.
Qed.

Lemma del_last_kept tr w s h k b w0 res w' : mrun api ok u0 tr w -> (MNew s, RHandle h) ∈ tr -> k ∈ stored tr h ->
  (∀ k', k' ∈ stored tr h -> k' ≠ k -> (dig s k' 0 < dig s k 0)%N) ->
  mcall api (MPtr h k) w = Ret (RPtr (Some b)) w0 ->
  mcall api (MDel h k) w = Ret res w' -> keeps (w_mem w') h b.
Proof.
  intros Hr Hin Hk Hlast Ep Ed. destruct (map_pack zero fuel api dig ok Ht) as [].
  destruct (Refine.run_rel F L Q HF HL Hcell zero fuel Hfuel dig Hdig FS FM sop mdop vs WS WM HFS HFM HWS HWM Hvs Hsop Hmop
    api HSet HMod HDel HGet HVal HPtr HAll ok u0 Hok tr w Hr) as (σ & Hsp & HR).
  pose proof (mspec_live dig zero u0 tr σ Hsp _ _ Hin) as Hlive.
  destruct (Refine.Rel_handle F L Q w σ h HR Hlive) as (G & s' & T & HI & HGh & HQ & HG & Hm & Hmh & Hv & Hu).
  assert (Hkeys : map fst (leaves T) ≡ₚ elements (stored tr h)).
  { rewrite (stored_keys dig zero u0 tr σ h s' _ Hsp Hmh).
    rewrite (Refine.dict_list F L Hcell _ _ _ _ HG). by rewrite (Refine.ent_keys F L Hcell _ _ _ _ HG). }
  assert (s' = s) as ->.
  { destruct (ObserveFacts.mspec_new _ _ _ _ _ Hsp _ _ Hin) as [m1 H1]. rewrite Hmh in H1. by injection H1 as -> _. }
  assert (Hkt : k ∈ map fst (leaves T)) by (rewrite Hkeys; by apply elem_of_elements).
  apply elem_of_list_fmap in Hkt as ([k0 p] & E & Hkt). cbn [fst] in E. subst k0.
  assert (Hkok : ly_ok L k) by (by eapply Good_ok).
  assert (Hdl : ∀ k', k' ∈ map fst (leaves T) -> k' ≠ k -> (nib F s k' 0 < nib F s k 0)%N).
  { intros k' Hk' Hne. rewrite !Hdig. apply Hlast; [|done]. rewrite Hkeys in Hk'. by apply elem_of_elements. }
  destruct (last_item F L 240 s (le_n 240) w h T k p HG Hkt Hdl) as (a & bef & ->).
  unfold mcall in Ed, Ep. rewrite HDel in Ed. rewrite HPtr in Ep.
  apply bind_inv_Ret in Ed as ([] & w1 & Ed & E). injection E as _ <-.
  destruct (delete_last F L 240 s HF HL (le_n 240) w h a bef k p fuel _ _ HG Ed) as (rt & ls & H1 & H2 & H3 & H4).
  apply bind_inv_Ret in Ep as (x & w2 & Ep & E). injection E as E <-.
  destruct x as [|b']; [discriminate E|]. injection E as ->.
  unfold ptr_of in Ep. 
  destruct (find_spec F L HF 240 s (le_n 240) HL w h _ k fuel HG Hkok Hfuel) as [(p' & Hp' & Ef)|[Hab _]]; [|by apply Hab in Hkt].
  assert (p' = p) as -> by (eapply entries_unique; [by eapply Good_wf|apply HG|exact Hkt|exact Hp']).
  rewrite (bind_Ret _ _ _ _ _ Ef) in Ep. destruct (lk_ptr (ly_leaf L k p)) as [|b''] eqn:El; [discriminate Ep|].
  injection Ep as ->. apply rtc_l with a.
  - unfold points. rewrite H1. by left.
  - apply rtc_once. unfold points. rewrite H3. exists (length bef), (ly_leaf L k p). done.
Qed.
End run.
