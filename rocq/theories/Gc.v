(** What a program does with a part of the memory it does with all of it, and the blocks of
    a container are those which it keeps. *)
From stdpp Require Import base numbers list gmap relations.
From Verif Require Import GoInt Mem Hash Prog PAmt PFam ProgSim Amt Families BitsFacts Steps Tree Rep Paths Descend Insert Split Delete Remove Core Scan Order Heap Spec SpecFacts Guards Client Types PClient ConcClient ConcMapAll KeepSpec GcSpec.
Local Open Scope nat_scope.

(** ** Less memory *)
Section less.
Context {V CK U : Type}.
Implicit Types (w : world V CK U).
Definition less w w0 : Prop := w_mem w ⊆ w_mem w0 /\ w_nxt w = w_nxt w0 /\ w_usr w = w_usr w0.

Lemma run_less {A} (p : Prog.prog V CK U A) : ∀ w w0 x w', Prog.run p w = Ret x w' -> less w w0 ->
  ∃ w0', Prog.run p w0 = Ret x w0' /\ less w' w0'.
Proof.
  induction p as [a| | | |l k IH|l b k IH|b k IH|k IH|u k IH]; intros w w0 x w' Hr Hl; simpl in Hr |- *; try discriminate.
  - injection Hr as -> ->. by exists w0.
  - destruct (w_mem w !! l) as [b|] eqn:E; [|discriminate]. pose proof Hl as [Hm _].
    rewrite (lookup_weaken _ _ _ _ E Hm). by eapply IH.
  - destruct (w_mem w !! l) as [b0|] eqn:E; [|discriminate]. destruct Hl as (Hm & Hn & Hu).
    rewrite (lookup_weaken _ _ _ _ E Hm). eapply IH; [exact Hr|]. split_and!; simpl; [|done|done]. by apply insert_mono.
  - destruct Hl as (Hm & Hn & Hu). rewrite <- Hn, <- Hu. eapply IH; [exact Hr|]. split_and!; simpl; [|done|done]. by apply insert_mono.
  - pose proof Hl as (_ & _ & <-). by eapply IH.
  - destruct Hl as (Hm & Hn & Hu). eapply IH; [exact Hr|]. done.
Qed.

Lemma any_map_sim {K} (zero : V) fuel (api : mapapi K V CK U) : any_map zero fuel api -> ∃ papi, mapi_sim papi api.
Proof.
  destruct 1.
  - eexists. apply StringMap_sim.
  - eexists. apply BytesMap_sim.
  - eexists. apply IntMap_sim.
  - eexists. apply ArrMap_sim.
  - eexists. apply Map_sim.
Qed.
Lemma mcall_less {K} (zero : V) fuel (api : mapapi K V CK U) op w w0 x w' : any_map zero fuel api ->
  mcall api op w = Ret x w' -> less w w0 -> ∃ w0', mcall api op w0 = Ret x w0' /\ less w' w0'.
Proof.
  intros Ha Hc Hl. destruct (any_map_sim zero fuel api Ha) as [papi Hs].
  pose proof (sim_mcall papi api (Op op) Hs) as Hsim. cbn [the_op] in Hsim. unfold sim in Hsim.
  rewrite <- Hsim in Hc. rewrite <- Hsim. by eapply run_less.
Qed.
End less.

Section sless.
Context {CK U : Type}.
Implicit Types (w : world unit CK U).
Lemma any_set_sim {K} b fuel (api : setapi K unit CK U) : any_set fuel b api -> ∃ papi, sapi_sim papi api.
Proof.
  destruct 1.
  - eexists. apply StringSet_sim.
  - eexists. apply BytesSet_sim.
  - eexists. apply IntSet_sim.
  - eexists. apply ArrSet_sim.
  - eexists. apply Set_sim.
Qed.
Lemma scall_less {K} b fuel (api : setapi K unit CK U) op w w0 x w' : any_set fuel b api ->
  scall api op w = Ret x w' -> less w w0 -> ∃ w0', scall api op w0 = Ret x w0' /\ less w' w0'.
Proof.
  intros Ha Hc Hl. destruct (any_set_sim b fuel api Ha) as [papi Hs].
  pose proof (sim_scall papi api op Hs) as Hsim. unfold sim in Hsim.
  rewrite <- Hsim in Hc. rewrite <- Hsim. by eapply run_less.
Qed.
End sless.

(** ** Runs with collections are runs without *)
Lemma gcrun_less {K V CK U} (zero : V) fuel (api : mapapi K V CK U) ok (u0 : U) tr R w : any_map zero fuel api ->
  gcrun api ok u0 tr R w -> ∃ w0, mrun api ok u0 tr w0 /\ less w w0.
Proof.
  intros Ha. induction 1 as [|tr R w op res w' Hg (w0 & Hr & Hl) Ho Ht Hc|tr R R' w Hg IH Hsub|tr R w m' Hg (w0 & Hr & Hl) Hcol].
  - exists (empty_world u0). split; [constructor|done].
  - destruct (mcall_less zero fuel api op w w0 res w' Ha Hc Hl) as (w0' & Hc' & Hl'). exists w0'. split; [|done]. by econstructor.
  - exact IH.
  - exists w0. split; [done|]. destruct Hl as (Hm & Hn & Hu). split_and!; simpl; [|done|done]. etrans; [apply Hcol|done].
Qed.
Lemma sgcrun_less {K CK U} b fuel (api : setapi K unit CK U) ok (u0 : U) tr R w : any_set fuel b api ->
  sgcrun api ok u0 tr R w -> ∃ w0, srun api ok u0 tr w0 /\ less w w0.
Proof.
  intros Ha. induction 1 as [|tr R w op res w' Hg (w0 & Hr & Hl) Ho Ht Hc|tr R R' w Hg IH Hsub|tr R w m' Hg (w0 & Hr & Hl) Hcol].
  - exists (empty_world u0). split; [constructor|done].
  - destruct (scall_less b fuel api op w w0 res w' Ha Hc Hl) as (w0' & Hc' & Hl'). exists w0'. split; [|done]. by econstructor.
  - exact IH.
  - exists w0. split; [done|]. destruct Hl as (Hm & Hn & Hu). split_and!; simpl; [|done|done]. etrans; [apply Hcol|done].
Qed.

(** ** A container keeps its blocks *)
Section kept.
Context {K HS V CK U : Type} (F : fam K HS V CK U) (L : layout K V CK).
Hypothesis HF : fam_ok F L.

Lemma rep_locs_kept (m : gmap loc (block V CK)) (t : tree K) : ∀ d lk l, rep L m d lk t -> l ∈ locs t ->
  ∃ c, lk_ptr lk = At c /\ keeps m c l.
Proof.
  induction t as [k p|a cs IH] using tree_ind'; intros d lk l Hrep Hl.
  - apply rep_leaf_inv in Hrep as (-> & _ & _). rewrite (fo_ptr _ _ HF). cbn [locs] in Hl.
    destruct p as [|c]; [by apply elem_of_nil in Hl|]. apply elem_of_list_singleton in Hl as ->. exists c. split; [done|apply rtc_refl].
  - apply rep_node_inv in Hrep as (-> & _ & lks & rest & Ha & _ & Hf). exists a. split; [done|].
    cbn [locs] in Hl. apply elem_of_cons in Hl as [->|Hl]; [apply rtc_refl|].
    apply elem_of_list_In, in_flat_map in Hl as (c & Hc & Hk). apply elem_of_list_In in Hc, Hk.
    rewrite Forall_forall in IH. pose proof (elem_of_list_lookup_1 _ _ Hc) as [i Hi].
    destruct (Forall2_lookup_r _ _ _ _ _ Hf Hi) as (x & Hx & Hrx).
    destruct (IH c Hc (S d) x l Hrx Hk) as (c' & Hp & Hkp).
    apply rtc_l with c'; [|exact Hkp]. unfold points. rewrite Ha. exists i, x. split; [|done]. by apply lookup_app_l_Some.
Qed.
Lemma foot_kept D s (w : world V CK U) h T l : Good F L D s w h T -> l ∈ foot h T -> keeps (w_mem w) h l.
Proof.
  intros [[(rt & Hrt & _ & Hrep & _) _ _ _] _] Hl. apply elem_of_cons in Hl as [->|Hl]; [apply rtc_refl|].
  destruct (rep_locs_kept _ _ _ _ _ Hrep Hl) as (c & Hc & Hk). apply rtc_l with c; [|exact Hk].
  unfold points. rewrite Hrt. by left.
Qed.

(** What is left of the containers after a collection. *)
Lemma Inv_collect D Q (w : world V CK U) (G : gmap loc (N * tree K)) R m' : Inv F L D Q w G -> collected R (w_mem w) m' ->
  Inv F L D Q (set_mem w m') (filter (λ x, x.1 ∈ R) G).
Proof.
  intros [Hok Hg Hsep] [Hsub Hkeep].
  assert (Hlk : ∀ h s T, filter (λ x : loc * (N * tree K), x.1 ∈ R) G !! h = Some (s, T) -> G !! h = Some (s, T) /\ h ∈ R).
  { intros h s T HG. by apply map_filter_lookup_Some in HG. }
  constructor.
  - intros l b Hb. apply (Hok l b). by eapply lookup_weaken.
  - intros h s T HG. apply Hlk in HG as [HG HR]. destruct (Hg _ _ _ HG) as [HQ HGd]. split; [done|].
    eapply Good_keep; [exact HGd|]. intros l Hl. apply keep_same. apply (Hkeep h l HR). by eapply foot_kept.
  - intros h1 s1 T1 h2 s2 T2 Hne H1 H2. apply Hlk in H1 as [H1 _]. apply Hlk in H2 as [H2 _]. by eapply Hsep.
Qed.
End kept.
