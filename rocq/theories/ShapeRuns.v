(** The memory of the containers of a run: C29, C32 and C35 for all types. *)
From stdpp Require Import base numbers list gmap.
From Verif Require Import GoInt Mem Hash Amt Families BitsFacts Steps Tree Rep Paths Descend Insert Split Delete Remove Core Spec Order Heap SpecFacts Guards Client Types Refine RefineSet Pack Levels Shape NoUnlink PathKeep.
Local Open Scope nat_scope.

(** ** Levels of a container that satisfies the invariant *)
Section good.
Context {K HS V CK U : Type} (F : fam K HS V CK U) (L : layout K V CK) (D : nat) (s : N).
Lemma good_level (w : world V CK U) h T d lv : Good F L D s w h T -> level (w_mem w) h d lv ->
  ∃ a cs, rep L (w_mem w) d lv (Node a cs) /\ (d ≠ 0 -> canon (Node a cs)) /\ canon_cs cs.
Proof.
  intros [[(rt & Hr & _ & Hrep & _) _ Hc _] _] Hl. by eapply level_rep.
Qed.
Lemma good_slots (w : world V CK U) h T d lv : Good F L D s w h T -> level (w_mem w) h d lv ->
  ∃ n, slots (w_mem w) lv n /\ (d = 0 -> n = 16) /\
    (d ≠ 0 -> n mod 4 = 0 /\ length (digits_of lv) <= n < length (digits_of lv) + 4 /\
      ∃ q1 x1 q2 x2, q1 ≠ q2 /\ below (w_mem w) lv q1 x1 /\ below (w_mem w) lv q2 x2).
Proof.
  intros HG Hl. destruct (good_level w h T d lv HG Hl) as (a & cs & Hr & Hc & _).
  pose proof Hr as (-> & Hrs & lks & rest & Ha & Hlen & Hf)%rep_node_inv.
  exists (cap d (length cs)). split; [|split].
  - exists a, (lks ++ rest). done.
  - by intros ->.
  - intros Hd. destruct d as [|d]; [done|]. specialize (Hc Hd). rewrite digits_of_bits by done. rewrite map_length.
    assert (Hn : length cs ≠ 0) by (by destruct cs; [destruct Hc|]).
    assert (H16 : length cs <= 16) by (rewrite <- (map_length fst); by apply radixes_length).
    cbn [cap]. rewrite arr_cap_spec by done.
    split; [|split].
    + rewrite Nat.mul_comm. by apply Nat.mod_mul.
    + pose proof (Nat.div_mod (length cs + 3) 4 ltac:(lia)). pose proof (Nat.mod_upper_bound (length cs + 3) 4 ltac:(lia)). lia.
    + by eapply two_below.
Qed.
Lemma good_other (w : world V CK U) h T d lv i r x : Good F L D s w h T -> level (w_mem w) h d lv -> d ≠ 0 ->
  slot (w_mem w) lv i r x -> is_entry lv r = true -> ∃ i' r' x', r' ≠ r /\ slot (w_mem w) lv i' r' x'.
Proof.
  intros HG Hl Hd Hs He. destruct (good_level w h T d lv HG Hl) as (a & cs & Hr & Hc & _).
  specialize (Hc Hd). apply canon_node in Hc as [Hok _].
  destruct (rep_slot _ _ _ _ _ _ _ _ _ Hr Hs) as (t & Hi & _ & Ht). rewrite He in Ht. destruct t as [k p|]; [|done].
  assert (Hnd : NoDup (map fst cs)).
  { apply rep_node_inv in Hr as (_ & Hrs & _). apply radixes_32 in Hrs as [Hst _].
    clear -Hst. induction Hst as [|y l Hst IH Hl]; constructor; [|done].
    intros Hin. rewrite Forall_forall in Hl. apply Hl in Hin. lia. }
  assert (∃ j r' t', j ≠ i /\ cs !! j = Some (r', t')) as (j & r' & t' & Hne & Hj).
  { destruct cs as [|[r0 t0] [|[r1 t1] cs]]; [done| |].
    - destruct i; [|done]. injection Hi as -> ->. done.
    - destruct i as [|i]; [by exists 1, r1, t1|by exists 0, r0, t0]. }
  destruct (slot_rep _ _ _ _ _ _ _ _ _ Hr Hj) as (x' & Hs' & _). exists j, r', x'. split; [|done].
  intros ->. apply Hne. eapply (NoDup_lookup (map fst cs)); [done|..];
    change (map fst cs) with (fst <$> cs); by rewrite list_lookup_fmap; first [rewrite Hj|rewrite Hi].
Qed.
End good.

(** ** Maps *)
Section maps.
Context {V U : Type} (zero : V) (fuel : nat) (u0 : U).
Hypothesis Hfuel : 256 <= fuel.
Context `{Countable K} {CK : Type} (api : mapapi K V CK U) (dig : N -> K -> nat -> N).
Variable ok : list (mop K V U * mres V) -> mop K V U -> Prop.
Hypothesis Ht : map_type zero fuel api dig ok.
Implicit Types (tr : list (mop K V U * mres V)) (w : world V CK U) (h : loc) (k : K).

Lemma map_good tr w s h : mrun api ok u0 tr w -> (MNew s, RHandle h) ∈ tr ->
  ∃ HS (F : fam K HS V CK U) L s T, fam_ok F L /\ laws F L /\ (∀ oh k, ma_Del api oh k = delete F fuel oh k) /\
    (∀ s k d, nib F s k d = dig s k d) /\ Good F L 240 s w h T /\ w_ok w /\
    map fst (leaves T) ≡ₚ elements (stored tr h) /\ (MNew s, RHandle h) ∈ tr.
Proof.
  intros Hr Hin. destruct (map_pack zero fuel api dig ok Ht) as [].
  destruct (Refine.run_rel F L Q HF HL Hcell zero fuel Hfuel dig Hdig FS FM sop mdop vs WS WM HFS HFM HWS HWM Hvs Hsop Hmop
    api HSet HMod HDel HGet HVal HPtr HAll ok u0 Hok tr w Hr) as (σ & Hsp & HR).
  pose proof (mspec_live dig zero u0 tr σ Hsp _ _ Hin) as Hlive.
  destruct (Refine.Rel_handle F L Q w σ h HR Hlive) as (G & s' & T & HI & HGh & HQ & HG & Hm & Hmh & Hv & Hu).
  exists HS, F, L, s', T. split_and!; try done.
  - apply (in_ok _ _ _ _ _ _ HI).
  - rewrite (stored_keys dig zero u0 tr σ h s' _ Hsp Hmh).
    rewrite (Refine.dict_list F L Hcell _ _ _ _ HG). by rewrite (Refine.ent_keys F L Hcell _ _ _ _ HG).
  - by eapply (mspec_seed dig zero u0 tr σ Hsp).
Qed.

Lemma map_any : any_map zero fuel api.
Proof. destruct Ht; constructor. Qed.

Lemma mrun_mono (ok' : list (mop K V U * mres V) -> mop K V U -> Prop) tr w :
  (∀ tr op, ok' tr op -> ok tr op) -> mrun api ok' u0 tr w -> mrun api ok u0 tr w.
Proof. intros Hi. induction 1; econstructor; eauto. Qed.

Local Notation near_del := (near_del dig).

Lemma del_clean tr w s h k : mrun api ok u0 tr w -> (MNew s, RHandle h) ∈ tr -> near_del tr (MDel h k) ->
  path_empty (w_mem w) h -> ∃ w', ma_Del api (Some h) k w = Ret tt w' /\ path_empty (w_mem w') h.
Proof.
  intros Hr Hin [Hst Hd] Hp. destruct (map_good tr w s h Hr Hin) as (HS & F & L & s' & T & HF & HL & HDel & Hdig & HG & Hw & Hperm & Hin').
  assert (Hkt : k ∈ map fst (leaves T)) by (rewrite Hperm; by apply elem_of_elements).
  apply elem_of_list_fmap in Hkt as ([k' p] & -> & Hkp). cbn [fst] in *.
  destruct (Good_ok _ _ _ _ _ _ _ _ _ HG Hkp) as [Hlok _].
  destruct (delete_spec F L HF 240 s' (le_n _) HL w h T k' fuel HG Hw Hlok Hfuel)
    as [(p' & q & Hin2 & Hpin & w' & T' & Hrun & Hq & HG' & Hlv & Hfoot & Hcl)|(Habs & _)]; [|by apply Habs in Hkp].
  exists w'. rewrite HDel. split; [done|]. apply Hcl; [exact Hp|].
  pose proof (depth_spec F L 240 s' w h T _ (le_n _) HG Hpin) as Hdep. cbn [fst snd] in Hdep. unfold pdepth in Hdep.
  cbn [fst] in Hdep. specialize (Hd s' Hin').
  rewrite (depth_perm dig s' _ _ _ (symmetry Hperm)) in Hd.
  rewrite (depth_ext _ dig) in Hdep by (intros; apply Hdig). lia.
Qed.

Lemma runs_clean tr w : mrun api (λ tr op, ok tr op /\ near_del tr op) u0 tr w ->
  ∀ s h, (MNew s, RHandle h) ∈ tr -> path_empty (w_mem w) h.
Proof.
  intros Hr. assert (Hw : w_ok w /\ ∀ s h, (MNew s, RHandle h) ∈ tr -> path_empty (w_mem w) h); [|apply Hw].
  induction Hr as [|tr w op res w' Hr [Hw IH] [Ho Hn] Hc].
  { split; [|intros s h Hin; by apply elem_of_nil in Hin]. intros l b Hl. simpl in Hl. by rewrite lookup_empty in Hl. }
  assert (Hr0 : mrun api ok u0 tr w) by (eapply mrun_mono; [|exact Hr]; by intros ?? [? _]).
  set (S := λ h : loc, ∀ k, op ≠ MDel h k).
  assert (Hk : kept S w w').
  { pose proof (mcall_pk (S:=S) zero fuel api op map_any) as Hpk. 
    specialize (Hpk ltac:(intros h k -> HS; by apply (HS k)) w Hw). by rewrite Hc in Hpk. }
  split; [by apply Hk|]. intros s h Hin.
  apply elem_of_cons in Hin as [[= <- <-]|Hin].
  - (* the new container *)
    revert Hc. cbn [mcall]. unfold New, new_root, alloc, handle, bind, ret. cbn [w_mem w_nxt]. intros [= <- <-].
    eexists. split; [apply lookup_insert|]. cbn [rt_path]. by repeat constructor.
  - pose proof (IH s h Hin) as Hp.
    assert (Hcase : S h \/ ∃ k, op = MDel h k).
    { destruct op as [| | |h1 k1| | | | | | | |]; try (left; unfold S; intros ?; discriminate).
      destruct (decide (h1 = h)) as [->|Hne]; [right; eauto|left]. unfold S. intros k [= ? ?]. done. }
    destruct Hcase as [HS|[k ->]].
    + destruct Hp as (rt & Hrt & Hf). destruct Hk as [_ Hk]. destruct (Hk h rt Hrt) as (rt' & Hrt' & _ & E).
      exists rt'. split; [done|]. by rewrite E by done.
    + destruct (del_clean tr w s h k Hr0 Hin Hn Hp) as (w1 & Hdel & Hp1).
      revert Hc. cbn [mcall]. unfold bind. rewrite Hdel. by intros [= _ <-].
Qed.

(** C35: without the loop, Del does the same. *)
Lemma del_short tr w s h k : mrun api ok u0 tr w -> (MNew s, RHandle h) ∈ tr ->
  ∃ HS (F : fam K HS V CK U), (∀ oh k, ma_Del api oh k = delete F fuel oh k) /\
    ma_Del api (Some h) k w = delete_short F negb fuel (Some h) k w.
Proof.
  intros Hr Hin. destruct (map_good tr w s h Hr Hin) as (HS & F & L & s' & T & HF & HL & HDel & Hdig & HG & Hw & Hperm & Hin').
  exists HS, F. split; [done|]. rewrite HDel. by eapply (delete_is_short F L 240 s' HF (le_n _) HL).
Qed.
End maps.

(** ** Sets *)
Section sets.
Context {U : Type} (fuel : nat) (u0 : U).
Hypothesis Hfuel : 256 <= fuel.
Context `{Countable K} {CK : Type} (api : setapi K unit CK U) (dig : N -> K -> nat -> N).
Variable ok : list (sop K U * sres) -> sop K U -> Prop.
Hypothesis Ht : set_type fuel api dig ok.
Implicit Types (tr : list (sop K U * sres)) (w : world unit CK U) (h : loc) (k : K).

Lemma set_good tr w s h : srun api ok u0 tr w -> (SNew s, THandle h) ∈ tr ->
  ∃ HS (F : fam K HS unit CK U) L s T, fam_ok F L /\ laws F L /\
    ((∃ tr h k, ok tr (SDel h k)) -> ∀ oh k, sa_Del api oh k = delete F fuel oh k) /\
    (∀ s k d, nib F s k d = dig s k d) /\ Good F L 240 s w h T /\ w_ok w /\
    map fst (leaves T) ≡ₚ elements (sstored tr h) /\ (SNew s, THandle h) ∈ tr.
Proof.
  intros Hr Hin. destruct (set_pack fuel api dig ok Ht) as [].
  destruct (RefineSet.run_rel F L Q HF HL fuel Hfuel dig Hdig FA aop W dfull tt HFA HW Haop api HAdd HDel HHas HAll ok u0 Hok tr w Hr)
    as (σ & Hsp & G & HI & Hm & Hu).
  destruct (sspec_live dig u0 tr σ Hsp _ _ Hin) as [[s' X] Hx].
  destruct (sspec_stored dig u0 tr σ Hsp h s' X Hx) as [HX Hin'].
  rewrite Hm, lookup_fmap in Hx. destruct (G !! h) as [[s1 T]|] eqn:E; [|done]. simpl in Hx. injection Hx as -> Hkeys.
  destruct (in_good _ _ _ _ _ _ HI _ _ _ E) as [HQ HG].
  exists HS, F, L, s', T. split_and!; try done.
  - intros (tr1 & h1 & k1 & Ho). apply HDel. destruct (Hok _ _ Ho) as [_ Hg]. by destruct Hg.
  - apply (in_ok _ _ _ _ _ _ HI).
  - rewrite <- HX, <- Hkeys. symmetry. exact (RefineSet.keys_list F L _ _ _ _ HG).
Qed.

Lemma set_any : ∃ b, any_set fuel b api.
Proof. destruct Ht; eexists; constructor. Qed.

Lemma srun_mono (ok' : list (sop K U * sres) -> sop K U -> Prop) tr w :
  (∀ tr op, ok' tr op -> ok tr op) -> srun api ok' u0 tr w -> srun api ok u0 tr w.
Proof. intros Hi. induction 1; econstructor; eauto. Qed.

Local Notation near_sdel := (near_sdel dig).

Lemma sdel_clean tr w s h k : srun api ok u0 tr w -> (SNew s, THandle h) ∈ tr -> ok tr (SDel h k) -> near_sdel tr (SDel h k) ->
  path_empty (w_mem w) h -> ∃ w', sa_Del api (Some h) k w = Ret tt w' /\ path_empty (w_mem w') h.
Proof.
  intros Hr Hin Ho [Hst Hd] Hp. destruct (set_good tr w s h Hr Hin) as (HS & F & L & s' & T & HF & HL & HDel & Hdig & HG & Hw & Hperm & Hin').
  assert (Hkt : k ∈ map fst (leaves T)) by (rewrite Hperm; by apply elem_of_elements).
  apply elem_of_list_fmap in Hkt as ([k' p] & -> & Hkp). cbn [fst] in *.
  destruct (Good_ok _ _ _ _ _ _ _ _ _ HG Hkp) as [Hlok _].
  destruct (delete_spec F L HF 240 s' (le_n _) HL w h T k' fuel HG Hw Hlok Hfuel)
    as [(p' & q & Hin2 & Hpin & w' & T' & Hrun & Hq & HG' & Hlv & Hfoot & Hcl)|(Habs & _)]; [|by apply Habs in Hkp].
  exists w'. rewrite HDel by eauto. split; [done|]. apply Hcl; [exact Hp|].
  pose proof (depth_spec F L 240 s' w h T _ (le_n _) HG Hpin) as Hdep. cbn [fst snd] in Hdep. unfold pdepth in Hdep.
  cbn [fst] in Hdep. specialize (Hd s' Hin').
  rewrite (depth_perm dig s' _ _ _ (symmetry Hperm)) in Hd.
  rewrite (depth_ext _ dig) in Hdep by (intros; apply Hdig). lia.
Qed.

Lemma sruns_clean tr w : srun api (λ tr op, ok tr op /\ near_sdel tr op) u0 tr w ->
  ∀ s h, (SNew s, THandle h) ∈ tr -> path_empty (w_mem w) h.
Proof.
  intros Hr. assert (Hw : w_ok w /\ ∀ s h, (SNew s, THandle h) ∈ tr -> path_empty (w_mem w) h); [|apply Hw].
  induction Hr as [|tr w op res w' Hr [Hw IH] [Ho Hn] Hc].
  { split; [|intros s h Hin; by apply elem_of_nil in Hin]. intros l b Hl. simpl in Hl. by rewrite lookup_empty in Hl. }
  assert (Hr0 : srun api ok u0 tr w) by (eapply srun_mono; [|exact Hr]; by intros ?? [? _]).
  set (S := λ h : loc, ∀ k, op ≠ SDel h k).
  assert (Hk : kept S w w').
  { destruct set_any as [b Hany]. pose proof (scall_pk (S:=S) fuel b api op Hany) as Hpk.
    specialize (Hpk ltac:(intros h k -> HS; by apply (HS k)) w Hw). by rewrite Hc in Hpk. }
  split; [by apply Hk|]. intros s h Hin.
  apply elem_of_cons in Hin as [[= <- <-]|Hin].
  - revert Hc. cbn [scall]. unfold New, new_root, alloc, handle, bind, ret. cbn [w_mem w_nxt]. intros [= <- <-].
    eexists. split; [apply lookup_insert|]. cbn [rt_path]. by repeat constructor.
  - pose proof (IH s h Hin) as Hp.
    assert (Hcase : S h \/ ∃ k, op = SDel h k).
    { destruct op as [| |h1 k1| | | |]; try (left; unfold S; intros ?; discriminate).
      destruct (decide (h1 = h)) as [->|Hne]; [right; eauto|left]. unfold S. intros k [= ? ?]. done. }
    destruct Hcase as [HS|[k ->]].
    + destruct Hp as (rt & Hrt & Hf). destruct Hk as [_ Hk]. destruct (Hk h rt Hrt) as (rt' & Hrt' & _ & E).
      exists rt'. split; [done|]. by rewrite E by done.
    + destruct (sdel_clean tr w s h k Hr0 Hin Ho Hn Hp) as (w1 & Hdel & Hp1).
      revert Hc. cbn [scall]. unfold bind. rewrite Hdel. by intros [= _ <-].
Qed.

Lemma sdel_short tr w s h k : srun api ok u0 tr w -> (SNew s, THandle h) ∈ tr -> ok tr (SDel h k) ->
  ∃ HS (F : fam K HS unit CK U), (∀ oh k, sa_Del api oh k = delete F fuel oh k) /\
    sa_Del api (Some h) k w = delete_short F negb fuel (Some h) k w.
Proof.
  intros Hr Hin Ho. destruct (set_good tr w s h Hr Hin) as (HS & F & L & s' & T & HF & HL & HDel & Hdig & HG & Hw & Hperm & Hin').
  exists HS, F. split; [eauto|]. rewrite HDel by eauto. by eapply (delete_is_short F L 240 s' HF (le_n _) HL).
Qed.
End sets.
