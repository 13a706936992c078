(** Additions that do not end, for IntMap, IntSet and the generic Map and Set,
    in the states that their claims (Types.v) cover. *)
From stdpp Require Import base numbers list gmap.
From Verif Require Import GoInt Mem Hash Amt Families BitsFacts Steps Tree Rep Paths Descend Insert Split Delete Remove Core Scan Order Heap Spec SpecFacts HashFacts Client Types Guards Refine RefineSet Instances Pack ObserveFacts ObserveSet Levels Shape Weak Place WeakHeap Alike.
Local Open Scope nat_scope.

(** The key in the way is rehashed, and from there on it has the digits of k. *)
Definition stuck {K HS V CK U} (F : fam K HS V CK U) (s : N) (k k' : K) : Prop :=
  ∀ n d ch, d <= 240 -> f_conf F n s k k' (N.of_nat d) = Some ch ->
    radix_of ch = nib F s k d /\ ∀ m, agree F s k k' m (N.of_nat d) (hproc F s k d) ch.

Section hang.
Context {K HS V CK U : Type} (F F' : fam K HS V CK U) (L : layout K V CK) (Q : N -> Prop).
Lemma good_hang op fuel (w : world V CK U) G h s T k k' p : Inv F L 240 Q w G -> G !! h = Some (s, T) -> alike F L F' -> 256 <= fuel ->
  (k', p) ∈ leaves T -> f_eq F' k k' = false -> (∀ d, nib F s k d = nib F s k' d) -> stuck F' s k k' ->
  insert F' op fuel (Some h) k w = Hang.
Proof.
  intros HI Hh (HF' & Hnib & _) Hf Hin E Hd Hst. destruct (in_good _ _ _ _ _ _ HI _ _ _ Hh) as [_ HG].
  destruct (Good_ok _ _ _ _ _ _ _ _ _ HG Hin) as [Hok _]. destruct HG as [HM HP].
  eapply (insert_alike F' L HF' 240 s ltac:(lia)); [exact HM|by eapply in_ok|done|exact Hok| |done|exact Hst].
  destruct (entry_of T k' p Hin) as (q & Hq). exists q. split; [|done].
  unfold placed in HP. rewrite Forall_forall in HP. apply HP in Hq. unfold well in Hq. cbn [fst snd] in Hq.
  rewrite Hq at 1. apply map_ext. intros d. by rewrite Hnib, Hd.
Qed.
End hang.

Section maps.
Context `{Countable K} {HS V CK U : Type} (F F' : fam K HS V CK U) (L : layout K V CK) (Q : N -> Prop) (dig : N -> K -> nat -> N) (zero : V) (u0 : U).
Hypothesis Hcell : ly_cell L = true.
Lemma rel_hang op fuel tr (w : world V CK U) (σ : mstate K V U) s h k k' : mspec dig zero u0 tr σ -> Refine.Rel F L Q w σ -> alike F L F' -> 256 <= fuel ->
  (MNew s, RHandle h) ∈ tr -> k' ∈ stored tr h -> f_eq F' k k' = false -> (∀ d, nib F s k d = nib F s k' d) -> stuck F' s k k' ->
  insert F' op fuel (Some h) k w = Hang.
Proof.
  intros Hs HR HA Hf Hin Hk E Hd Hst.
  apply (stored_holds dig zero u0 tr σ h k' Hs) in Hk as (s1 & m & Hm & [a Ha]).
  destruct (mspec_new dig zero u0 tr σ Hs s h Hin) as [m' Hm']. rewrite Hm in Hm'. injection Hm' as -> <-.
  destruct HR as (G & HI & Hmap & _). rewrite Hmap, lookup_fmap in Hm. destruct (G !! h) as [[s1 T]|] eqn:HG; [|done].
  injection Hm as -> <-. eapply (good_hang F F' L Q); try done.
  destruct (in_good _ _ _ _ _ _ HI _ _ _ HG) as [_ HGd]. by eapply (Refine.dict_some F L Hcell) in Ha.
Qed.
End maps.
Section sets.
Context `{Countable K} {HS V CK U : Type} (F F' : fam K HS V CK U) (L : layout K V CK) (Q : N -> Prop) (dig : N -> K -> nat -> N) (u0 : U).
Lemma srel_hang op fuel tr (w : world V CK U) (σ : sstate K U) s h k k' : sspec dig u0 tr σ -> RefineSet.Rel F L Q w σ -> alike F L F' -> 256 <= fuel ->
  (SNew s, THandle h) ∈ tr -> k' ∈ sstored tr h -> f_eq F' k k' = false -> (∀ d, nib F s k d = nib F s k' d) -> stuck F' s k k' ->
  insert F' op fuel (Some h) k w = Hang.
Proof.
  intros Hs HR HA Hf Hin Hk E Hd Hst.
  destruct (sspec_new dig u0 tr σ Hs s h Hin) as [X HX]. destruct (sspec_stored dig u0 tr σ Hs _ _ _ HX) as [-> _].
  destruct HR as (G & HI & Hmap & _). rewrite Hmap, lookup_fmap in HX. destruct (G !! h) as [[s1 T]|] eqn:HG; [|done].
  injection HX as -> Hkeys. rewrite <- Hkeys in Hk. unfold RefineSet.keys in Hk. apply elem_of_list_to_set in Hk.
  apply elem_of_list_In, in_map_iff in Hk as ([k1 p] & <- & Hk). apply elem_of_list_In in Hk.
  by eapply (good_hang F F' L Q).
Qed.
End sets.

(** Streaming hashes rehash right. *)
Lemma stream_stuck {K V CK U} (sum64 : N -> bytes -> N) (kbytes : K -> bytes) (F : fam K mhash V CK U) s k k' :
  f_start F = stream_start sum64 kbytes -> f_next F = stream_next sum64 kbytes -> f_conf F = stream_conf sum64 kbytes ->
  (∀ d, digit sum64 s (kbytes k) d = digit sum64 s (kbytes k') d) -> stuck F s k k'.
Proof.
  intros H1 H2 H3 Hd n d ch Hlt Hc. apply (stream_right sum64 kbytes F H1 H2 H3) in Hc as ->; [|lia]. split.
  - change (nib F s k' d = nib F s k d). by rewrite !(stream_nib sum64 kbytes F H1 H2).
  - intros m. pose proof (stream_agree sum64 kbytes F H1 H2 s k k' Hd m d) as Hx.
    unfold u8 in Hx. rewrite N.mod_small in Hx by lia. exact Hx.
Qed.

(** The generic Map and Set do if the digits do not depend on iter. *)
Section generic.
Context {K V U : Type} (Equal : K -> K -> bool) (Hash : K -> N -> N -> N).
Local Notation GF := (gen_fam (V:=V) (U:=U) Equal Hash).
Local Notation GM := (gen_mod_fam (V:=V) (U:=U) Equal Hash).
Lemma gen_wrap s k e : e < 256 -> advance GF s k (u8 (N.of_nat e + 1)) (hproc GF s k e) = hproc GF s k (if decide (e = 255) then 0 else S e).
Proof.
  intros He. case_decide as E.
  - subst e. done.
  - unfold u8. rewrite N.mod_small by lia. by replace (N.of_nat e + 1)%N with (N.of_nat (S e)) by lia.
Qed.
Lemma gen_agree s k k' : (∀ d, gdigit Hash s k d = gdigit Hash s k' d) ->
  ∀ n e, e < 256 -> agree GF s k k' n (N.of_nat e) (hproc GF s k e) (hproc GF s k' e).
Proof.
  intros Hd. induction n as [|n IH]; intros e He; [done|]. cbn [agree]. rewrite !gen_wrap by done. split.
  - change (nib GF s k (if decide (e = 255) then 0 else S e) = nib GF s k' (if decide (e = 255) then 0 else S e)). by rewrite !gen_nib.
  - assert (u8 (N.of_nat e + 1) = N.of_nat (if decide (e = 255) then 0 else S e)) as ->.
    { case_decide as E; [by subst e|]. unfold u8. rewrite N.mod_small by lia. lia. }
    apply IH. case_decide; lia.
Qed.
Lemma gen_stuck s k k' : (∀ d, gdigit Hash s k d = gdigit Hash s k' d) -> (∀ d, d <= 240 -> set_way Hash s k k' d) -> stuck GF s k k'.
Proof.
  intros Hd Hw n d ch Hlt Hc.
  assert (ch = hproc GF s k' d) as ->.
  { apply (inj Some). rewrite <- Hc, gen_hproc. cbn [f_conf gen_fam]. rewrite gen_conf. specialize (Hw d Hlt). unfold set_way in Hw.
    change 16%N with (N.of_nat 16). rewrite <- Nat2N.inj_mod. by rewrite Hw. }
  split; [change (nib GF s k' d = nib GF s k d); by rewrite !gen_nib|]. intros m. apply gen_agree; [done|lia].
Qed.
Lemma gen_mod_stuck s k k' : (∀ d, gdigit Hash s k d = gdigit Hash s k' d) -> (∀ d, d <= 240 -> mod_way Hash s k k' d) -> stuck GM s k k'.
Proof.
  intros Hd Hw n d ch Hlt Hc.
  assert (ch = hproc GM s k' d) as ->.
  { change (hproc GM) with (hproc GF). apply (inj Some). rewrite <- Hc, gen_hproc. cbn [f_conf gen_mod_fam]. rewrite gen_conf. specialize (Hw d Hlt). unfold mod_way in Hw.
    change 16%N with (N.of_nat 16). rewrite <- Nat2N.inj_mod. by rewrite Hw. }
  split; [change (nib GF s k' d = nib GF s k d); by rewrite !gen_nib|]. intros m.
  assert (Hx : agree GF s k k' m (N.of_nat d) (hproc GF s k d) (hproc GF s k' d)) by (apply gen_agree; [done|lia]).
  clear -Hx. change (hproc GM) with (hproc GF). revert Hx. generalize (N.of_nat d) (hproc GF s k d) (hproc GF s k' d).
  induction m as [|m IH]; intros; [done|]. destruct Hx as [H1 H2]. split; [exact H1|]. by apply IH.
Qed.
End generic.

Section types.
Context {V U : Type} (zero : V) (fuel : nat) (u0 : U).
Hypothesis Hfuel : 256 <= fuel.

Section int.
Context (sum64 : N -> bytes -> N) (Q : N -> Prop).
Theorem int_hangs tr (w : world V unit U) s h k k' :
  mrun (IntMap_api sum64 zero fuel) (λ tr op, mallowed is_int64 Q tr op /\ ins_guard (int_digit sum64) (int_way sum64) (int_way sum64) tr op) u0 tr w ->
  (MNew s, RHandle h) ∈ tr -> k' ∈ stored tr h -> k ≠ k' -> (∀ d, int_digit sum64 s k d = int_digit sum64 s k' d) ->
  (∀ v, mcall (IntMap_api sum64 zero fuel) (MSet h k v) w = Hang) /\ (∀ f, mcall (IntMap_api sum64 zero fuel) (MMod h k f) w = Hang).
Proof.
  intros Hr Hin Hk Hne Hd. set (F := int_fam (V:=V) (U:=U) sum64). set (L := int_layout (V:=V) is_int64).
  assert (HL : laws F L).
  { constructor. intros k1 k2 _ _. simpl. rewrite bool_decide_eq_true. naive_solver. }
  assert (HW : goodway L (int_digit sum64) F (int_way sum64)).
  { apply (stream_goodway sum64 intbytes); try done. intros s1 k1 ck p d [Hw|Hw]; [left|by right]. simpl. by apply small_hi. }
  assert (HF : fam_ok F L) by apply int_fam_ok.
  assert (HA : alike F L F) by (split_and!; [apply int_fam_ok|done|done]).
  assert (∃ σ, mspec (int_digit sum64) zero u0 tr σ /\ Refine.Rel F L Q w σ) as (σ & Hs & HR).
  { eapply (Refine.run_rel F L Q HF HL eq_refl zero fuel Hfuel (int_digit sum64) ltac:(intros; by apply (stream_nib sum64 intbytes)) F F
      (set_op F) (mod_op F zero) (λ v, v) (int_way sum64) (int_way sum64)); try done; try (intros; reflexivity).
    intros tr' op [Ho Hg]. split; [|done]. eapply allowed_impl; [|exact Ho]. intros k1 Hk1. by split. }
  assert (Hn : ∀ d, nib F s k d = nib F s k' d) by (intros d; rewrite !(stream_nib sum64 intbytes F eq_refl eq_refl); apply Hd).
  assert (E : f_eq F k k' = false) by (simpl; apply bool_decide_eq_false; congruence).
  assert (Hst : stuck F s k k') by (by apply (stream_stuck sum64 intbytes)).
  split; intros; cbn [mcall IntMap_api ma_Set ma_Mod]; unfold IntMap_Set, IntMap_Mod, bind;
    by erewrite (rel_hang F F L Q (int_digit sum64) zero u0).
Qed.
Theorem intset_hangs tr (w : world unit unit U) s h k k' :
  srun (IntSet_api sum64 fuel) (λ tr op, sallowed is_int64 Q tr op /\ add_guard (int_digit sum64) (int_way sum64) tr op) u0 tr w ->
  (SNew s, THandle h) ∈ tr -> k' ∈ sstored tr h -> k ≠ k' -> (∀ d, int_digit sum64 s k d = int_digit sum64 s k' d) ->
  scall (IntSet_api sum64 fuel) (SAdd h k) w = Hang.
Proof.
  intros Hr Hin Hk Hne Hd. set (F := intset_fam (V:=unit) (U:=U) sum64). set (L := intset_layout (V:=unit) is_int64).
  assert (HL : laws F L).
  { constructor. intros k1 k2 _ _. simpl. rewrite bool_decide_eq_true. naive_solver. }
  assert (HW : goodway L (int_digit sum64) F (int_way sum64)).
  { apply (stream_goodway sum64 intbytes); try done. intros s1 k1 ck p d [Hw|Hw]; [left|by right]. simpl. by apply small_hi. }
  assert (HF : fam_ok F L) by apply intset_fam_ok.
  assert (HA : alike F L F) by (split_and!; [apply intset_fam_ok|done|done]).
  assert (∃ σ, sspec (int_digit sum64) u0 tr σ /\ RefineSet.Rel F L Q w σ) as (σ & Hs & HR).
  { eapply (RefineSet.run_rel F L Q HF HL fuel Hfuel (int_digit sum64) ltac:(intros; by apply (stream_nib sum64 intbytes)) F
      (add_op F tt) (int_way sum64) true tt); try done; try (intros; reflexivity).
    intros tr' op [Ho Hg]. split; [|destruct op; simpl in *; auto]. eapply sallowed_impl; [|exact Ho]. intros k1 Hk1. by split. }
  assert (Hn : ∀ d, nib F s k d = nib F s k' d) by (intros d; rewrite !(stream_nib sum64 intbytes F eq_refl eq_refl); apply Hd).
  assert (E : f_eq F k k' = false) by (simpl; apply bool_decide_eq_false; congruence).
  assert (Hst : stuck F s k k') by (by apply (stream_stuck sum64 intbytes)).
  cbn [scall IntSet_api sa_Add]. unfold IntSet_Add, bind. by erewrite (srel_hang F F L Q (int_digit sum64) u0).
Qed.
End int.

Section generic.
Context {K : Type} `{Countable K} (Equal : K -> K -> bool) (Hash : K -> N -> N -> N) (P : K -> Prop) (Q : N -> Prop).
Hypothesis Heq : decides_eq Equal P.
Theorem gen_hangs tr (w : world V K U) s h k k' :
  mrun (Map_api zero fuel Equal Hash) (λ tr op, mallowed P Q tr op /\ ins_guard (gdigit Hash) (set_way Hash) (mod_way Hash) tr op) u0 tr w ->
  (MNew s, RHandle h) ∈ tr -> k' ∈ stored tr h -> Equal k k' = false -> (∀ d, gdigit Hash s k d = gdigit Hash s k' d) ->
  ((∀ d, d <= 240 -> set_way Hash s k k' d) -> ∀ v, mcall (Map_api zero fuel Equal Hash) (MSet h k v) w = Hang) /\
  ((∀ d, d <= 240 -> mod_way Hash s k k' d) -> ∀ f, mcall (Map_api zero fuel Equal Hash) (MMod h k f) w = Hang).
Proof.
  intros Hr Hin Hk E Hd. set (F := gen_fam (V:=V) (U:=U) Equal Hash). set (FM := gen_mod_fam (V:=V) (U:=U) Equal Hash). set (L := kv_layout (V:=V) P).
  assert (HL : laws F L) by (by apply gen_laws).
  assert (HF : fam_ok F L) by apply kv_fam_ok.
  assert (HA : alike F L F) by (by apply gen_alike). assert (HB : alike F L FM) by (by apply gen_mod_alike).
  assert (∃ σ, mspec (gdigit Hash) zero u0 tr σ /\ Refine.Rel F L Q w σ) as (σ & Hs & HR).
  { eapply (Refine.run_rel F L Q HF HL eq_refl zero fuel Hfuel (gdigit Hash) ltac:(intros; by apply gen_nib) F FM
      (set_op F) (mod_op F zero) (λ v, v) (set_way Hash) (mod_way Hash)); try done; try (intros; reflexivity).
    - apply (gen_goodway Equal).
    - apply (gen_mod_goodway Equal).
    - intros tr' op Ho. exact Ho. }
  assert (Hn : ∀ d, nib F s k d = nib F s k' d) by (intros d; unfold F; rewrite !gen_nib; apply Hd).
  split; intros Hw x; cbn [mcall Map_api ma_Set ma_Mod]; unfold Map_Set, Map_Mod, bind.
  - by erewrite (rel_hang F F L Q (gdigit Hash) zero u0); [| |exact Hs|exact HR|..|by apply gen_stuck].
  - by erewrite (rel_hang F FM L Q (gdigit Hash) zero u0); [| |exact Hs|exact HR|..|by apply gen_mod_stuck].
Qed.
Theorem genset_hangs tr (w : world unit K U) s h k k' :
  srun (Set_api fuel Equal Hash) (λ tr op, sallowed P Q tr op /\ add_guard (gdigit Hash) (set_way Hash) tr op) u0 tr w ->
  (SNew s, THandle h) ∈ tr -> k' ∈ sstored tr h -> Equal k k' = false -> (∀ d, gdigit Hash s k d = gdigit Hash s k' d) ->
  (∀ d, d <= 240 -> set_way Hash s k k' d) -> scall (Set_api fuel Equal Hash) (SAdd h k) w = Hang.
Proof.
  intros Hr Hin Hk E Hd Hw. set (F := gen_fam (V:=unit) (U:=U) Equal Hash). set (L := kv_layout (V:=unit) P).
  assert (HL : laws F L) by (by apply gen_laws).
  assert (HF : fam_ok F L) by apply kv_fam_ok.
  assert (HA : alike F L F) by (by apply gen_alike).
  assert (∃ σ, sspec (gdigit Hash) u0 tr σ /\ RefineSet.Rel F L Q w σ) as (σ & Hs & HR).
  { eapply (RefineSet.run_rel F L Q HF HL fuel Hfuel (gdigit Hash) ltac:(intros; by apply gen_nib) F
      (add_op F tt) (set_way Hash) true tt); try done; try (intros; reflexivity).
    - apply (gen_goodway Equal).
    - intros tr' op [Ho Hg]. split; [exact Ho|]. destruct op; simpl in *; auto. }
  assert (Hn : ∀ d, nib F s k d = nib F s k' d) by (intros d; unfold F; rewrite !gen_nib; apply Hd).
  cbn [scall Set_api sa_Add]. unfold Set_Add, bind.
  by erewrite (srel_hang F F L Q (gdigit Hash) u0); [|exact Hs|exact HR|..|by apply gen_stuck].
Qed.
End generic.
End types.
