(** Programs that use containers of several types: what the calculus says of
    them is true of the code. *)
From Coq Require Import Eqdep_dec.
From stdpp Require Import base numbers list gmap finite.
From Verif Require Import GoInt Mem Hash Amt Families Steps Tree Rep Heap Spec Client Types Guards Sep ProgramFacts Nested NestedSim NestedRun NestedSet MixedSpec MixedRules.
Local Open Scope nat_scope.

Section families.
Context {I : Type} `{EqDecision I} {T : I -> Type}.
Implicit Types (f : ∀ i, T i).
Lemma upd_same f i x : upd f i x i = x.
Proof.
  unfold upd. destruct (decide (i = i)) as [e|n]; [|done].
  rewrite (UIP_dec (λ a b : I, decide (a = b)) e eq_refl). done.
Qed.
Lemma upd_other f i x j : i ≠ j -> upd f i x j = f j.
Proof. intros Hne. unfold upd. by destruct (decide (i = j)). Qed.
(** What holds of the new component and of the old others. *)
Lemma upd_all (R : ∀ i, T i -> Prop) f i x : R i x -> (∀ j, j ≠ i -> R j (f j)) -> ∀ j, R j (upd f i x j).
Proof.
  intros Hx Hf j. destruct (decide (i = j)) as [<-|Hne]; [by rewrite upd_same|]. rewrite upd_other by done. auto.
Qed.

(** Choice for finitely many. *)
Lemma pick_list (l : list I) : (∀ i, inhabited (T i)) -> inhabited (∀ i, i ∈ l -> T i).
Proof.
  intros HT. induction l as [|i l [g]].
  - constructor. intros i Hi. exfalso. by apply elem_of_nil in Hi.
  - destruct (HT i) as [x]. constructor. intros j Hj. destruct (decide (i = j)) as [<-|Hne]; [exact x|].
    apply g. apply elem_of_cons in Hj as [?|?]; [exfalso; congruence|done].
Qed.
Lemma pick `{!Finite I} : (∀ i, inhabited (T i)) -> inhabited (∀ i, T i).
Proof. intros HT. destruct (pick_list (enum I) HT) as [g]. constructor. intros i. apply g, elem_of_enum. Qed.
End families.

(** ** The rules of MixedRules.v as projections *)
Section maps.
Context `{Countable K} {V CK U : Type} {api : mapapi K V CK U} {dig : N -> K -> nat -> N} {zero : V} {P : K -> Prop} {Q : N -> Prop}
  {fitS fitM : N -> list K -> K -> Prop}.
Definition m_rel (x : mruns api dig zero P Q fitS fitM) := match x with MRuns _ _ _ _ _ _ _ rel _ _ _ _ _ _ _ _ => rel end.
Variable x : mruns api dig zero P Q fitS fitM.
Lemma m_init u : m_rel x ∅ ∅ (empty_world u) (minit u).
Proof. destruct x. simpl. auto. Qed.
Lemma m_usr A G w σ : m_rel x A G w σ -> ms_usr σ = w_usr w.
Proof. destruct x. simpl. eauto. Qed.
Lemma m_own A G w σ u : m_rel x A G w σ -> m_rel x A G (World (w_mem w) (w_nxt w) u) (MState (ms_map σ) (ms_val σ) u).
Proof. destruct x. simpl. auto. Qed.
Definition m_call : ∀ A G w σ op, m_rel x A G w σ -> may P Q fitS fitM σ op -> (∀ h, uses op h -> h ∉ A) ->
    ∃ r w' σ' G', mcall api op w = Ret r w' /\ mstep dig zero σ op r σ' /\ m_rel x A G' w' σ' /\
      confined (rebuilds σ op) G w G' w' /\
      ∀ h, h ∉ rekeyed σ op -> is_Some (G !! h) -> G' !! h = G !! h :=
  match x with MRuns _ _ _ _ _ _ _ _ _ _ _ _ c _ _ _ => c end.
Definition m_all : ∀ A G w σ h s m, m_rel x A G w σ -> h ∉ A -> ms_map σ !! h = Some (s, m) ->
    ∃ T es, G !! h = Some (s, T) /\ es ≡ₚ map_to_list m /\ in_order dig s es.*1 /\
      ∀ (I : list (K * positive) -> world V CK U -> Prop) (do : K -> ptr -> M V CK U bool) w,
        (∀ es w, I es w -> ∃ A G σ, m_rel x A G w σ /\ G !! h = Some (s, T)) ->
        (∀ k a es w w', I ((k, a) :: es) w -> do k (At a) w = Ret true w' -> I es w') ->
        I es w -> ma_All api (Some h) do w = (_ <- walk (λ e, do e.1 (At e.2)) es ;; ret tt) w :=
  match x with MRuns _ _ _ _ _ _ _ _ _ _ _ _ _ c _ _ => c end.
Definition m_stored : ∀ A G w σ h k s m a cb, m_rel x A G w σ -> P k -> h ∉ A -> ms_map σ !! h = Some (s, m) ->
    m !! k = Some a -> ma_Mod api (Some h) k cb w = cb (At a) true w :=
  match x with MRuns _ _ _ _ _ _ _ _ _ _ _ _ _ _ c _ => c end.
Definition m_absent : ∀ lk g G w σ h k s m cb, m_rel x (mk_away g) G w σ -> P k -> h ∉ mk_away g ->
    ms_map σ !! h = Some (s, m) -> m !! k = None -> h ∉ lk -> fitM s (map_to_list m).*1 k ->
    ∃ a wc, let σ1 := MState (ms_map σ) (<[a := zero]> (ms_val σ)) (ms_usr σ) in
      ms_val σ !! a = None /\ m_rel x (mk_away (lose g h)) (base.delete h G) wc σ1 /\
      ((∀ k', ¬ in_way dig s (map_to_list m).*1 k k') -> m_rel x (mk_away g) G wc σ1) /\
      ∀ lk0 g0 G0, starts lk g G h lk0 g0 G0 ->
        (∀ w2 g2 G2, cb (At a) false wc = Panic w2 -> ran lk0 g0 G0 wc g2 G2 w2 ->
           ma_Mod api (Some h) k cb w = Panic w2 /\ ran lk g G w g2 G2 w2) /\
        (∀ w2 g2 σ2 G2, cb (At a) false wc = Ret tt w2 -> m_rel x (mk_away g2) G2 w2 σ2 ->
           ran lk0 g0 G0 wc g2 G2 w2 ->
           ∃ w' G', ma_Mod api (Some h) k cb w = Ret tt w' /\
             m_rel x (mk_away (back g2 h)) G' w' (MState (<[h := (s, <[k := a]> m)]> (ms_map σ2)) (ms_val σ2) (ms_usr σ2)) /\
             ran lk g G w (back g2 h) G' w') :=
  match x with MRuns _ _ _ _ _ _ _ _ _ _ _ _ _ _ _ c => c end.
End maps.

Section sets.
Context `{Countable K} {CK U : Type} {api : setapi K unit CK U} {dig : N -> K -> nat -> N} {P : K -> Prop} {Q : N -> Prop}
  {fit : N -> list K -> K -> Prop} {dl : bool}.
Definition s_rel (x : sruns api dig P Q fit dl) := match x with SRuns _ _ _ _ _ _ rel _ _ _ _ _ _ => rel end.
Variable x : sruns api dig P Q fit dl.
Lemma s_init u : s_rel x ∅ (empty_world u) (sinit u).
Proof. destruct x. simpl. auto. Qed.
Lemma s_usr G w σ : s_rel x G w σ -> ss_usr σ = w_usr w.
Proof. destruct x. simpl. eauto. Qed.
Lemma s_own G w σ u : s_rel x G w σ -> s_rel x G (World (w_mem w) (w_nxt w) u) (SState (ss_set σ) u).
Proof. destruct x. simpl. auto. Qed.
Definition s_call : ∀ G w σ op, s_rel x G w σ -> smay P Q fit dl σ op ->
    ∃ r w' σ' G', scall api op w = Ret r w' /\ sstep dig σ op r σ' /\ s_rel x G' w' σ' /\
      ∀ h, h ∉ srekeyed σ op -> is_Some (G !! h) -> G' !! h = G !! h :=
  match x with SRuns _ _ _ _ _ _ _ _ _ _ _ c _ => c end.
Definition s_all : ∀ G w σ h s X, s_rel x G w σ -> ss_set σ !! h = Some (s, X) ->
    ∃ T ks, G !! h = Some (s, T) /\ ks ≡ₚ elements X /\ in_order dig s ks /\
      ∀ (I : list K -> world unit CK U -> Prop) (do : K -> M unit CK U bool) w,
        (∀ ks w, I ks w -> ∃ G σ, s_rel x G w σ /\ G !! h = Some (s, T)) ->
        (∀ k ks w w', I (k :: ks) w -> do k w = Ret true w' -> I ks w') ->
        I ks w -> sa_All api (Some h) do w = (_ <- walk do ks ;; ret tt) w :=
  match x with SRuns _ _ _ _ _ _ _ _ _ _ _ _ c => c end.
End sets.

(** ** Calls do not depend on the user's state *)
Section cmds.
Context `{Countable K} {V U : Type} (dig : N -> K -> nat -> N) (zero : V).
Lemma mcmd_step (op : mcmd K V) m v (u : U) r σ' :
  mstep dig zero (MState m v u) (mop_of op) r σ' ->
  ms_usr σ' = u /\ mstep dig zero (MState m v tt) (mop_of op) r (MState (ms_map σ') (ms_val σ') tt).
Proof.
  destruct op; simpl.
  - intros (h & -> & Hn & ->). simpl. eauto.
  - intros (-> & s & m0 & Hm & Hx). simpl in *. destruct (m0 !! k) as [a|] eqn:E.
    + subst σ'. simpl. split; [done|]. split; [done|]. exists s, m0. split; [done|]. simpl. by rewrite E.
    + destruct Hx as (p & Hp & ->). simpl. split; [done|]. split; [done|]. exists s, m0. split; [done|]. simpl. rewrite E. eauto.
  - intros (-> & s & m0 & Hm & ->). simpl in *. split; [done|]. split; [done|]. eauto.
  - by intros (-> & Hm & ->).
  - by intros (-> & Hm & ->).
  - intros (-> & s & m0 & Hm & ->). simpl. split; [done|]. split; [done|]. eauto.
  - intros (-> & s & m0 & Hm & ->). simpl. split; [done|]. split; [done|]. eauto.
  - intros (-> & s & m0 & Hm & ->). simpl. split; [done|]. split; [done|]. eauto.
  - intros (-> & v0 & Hv & ->). simpl. split; [done|]. split; [done|]. eauto.
  - by intros (-> & Hv & ->).
Qed.
Lemma mcmd_may P Q fitS fitM (op : mcmd K V) m v (u : U) :
  may P Q fitS fitM (MState m v tt) (mop_of op) -> may P Q fitS fitM (MState m v u) (mop_of op).
Proof. by destruct op. Qed.
Lemma mcmd_uses (op : mcmd K V) h : uses (U:=U) (mop_of op) h -> uses (U:=unit) (mop_of op) h.
Proof. by destruct op. Qed.
Lemma mcmd_rebuilds (op : mcmd K V) m v (u : U) h :
  rebuilds (MState m v u) (mop_of op) h -> rebuilds (MState m v tt) (mop_of op) h.
Proof. by destruct op. Qed.
Lemma mcmd_rekeyed (op : mcmd K V) m v (u : U) :
  rekeyed (MState m v u) (mop_of op) = rekeyed (MState m v tt) (mop_of op).
Proof. by destruct op. Qed.
Lemma scmd_step (op : scmd K) X (u : U) r σ' :
  sstep dig (SState X u) (sop_of op) r σ' ->
  ss_usr σ' = u /\ sstep dig (SState X tt) (sop_of op) r (SState (ss_set σ') tt).
Proof.
  destruct op; simpl.
  - intros (h & -> & Hn & ->). simpl. eauto.
  - intros (-> & s & X0 & Hm & ->). simpl in *. split; [done|]. split; [done|]. eauto.
  - intros (-> & s & X0 & Hm & ->). simpl in *. split; [done|]. split; [done|]. eauto.
  - intros (-> & s & X0 & Hm & ->). simpl in *. split; [done|]. split; [done|]. eauto.
  - intros (-> & s & X0 & Hm & ->). simpl in *. split; [done|]. split; [done|]. eauto.
  - intros (-> & s & X0 & Hm & ->). simpl in *. split; [done|]. split; [done|]. eauto.
Qed.
Lemma scmd_may P Q fit dl (op : scmd K) X (u : U) :
  smay P Q fit dl (SState X tt) (sop_of op) -> smay P Q fit dl (SState X u) (sop_of op).
Proof. by destruct op. Qed.
Lemma scmd_rekeyed (op : scmd K) X (u : U) :
  srekeyed (SState X u) (sop_of op) = srekeyed (SState X tt) (sop_of op).
Proof. by destruct op. Qed.

Lemma ran_usr {CK : Type} lk g (G : gmap loc (N * tree K)) (w : world V CK U) g' G' w' (u u' : U) :
  ran lk g G w g' G' w' -> ran lk g G (World (w_mem w) (w_nxt w) u) g' G' (World (w_mem w') (w_nxt w') u').
Proof. done. Qed.
End cmds.

(** ** Simulation *)
Section sim.
Context {I J : Type} `{EqDecision I, EqDecision J} {K V CK : I -> Type} {SK SCK : J -> Type} {U : Type}.
Context `{∀ i, EqDecision (K i)} `{∀ i, Countable (K i)} `{∀ j, EqDecision (SK j)} `{∀ j, Countable (SK j)}.
Local Notation joint := (joint V U CK SCK).
Local Notation xstate := (xstate K V SK U).
Local Notation xmark := (xmark I J).
Local Notation xprog := (xprog K V SK U).
Variables (mapi : ∀ i, mapapi (K i) (V i) (CK i) joint) (sapi : ∀ j, setapi (SK j) unit (SCK j) joint).
Variables (dig : ∀ i, N -> K i -> nat -> N) (zero : ∀ i, V i) (P : ∀ i, K i -> Prop) (Q : I -> N -> Prop)
  (fitS fitM : ∀ i, N -> list (K i) -> K i -> Prop).
Variables (sdig : ∀ j, N -> SK j -> nat -> N) (SP : ∀ j, SK j -> Prop) (SQ : J -> N -> Prop)
  (fit : ∀ j, N -> list (SK j) -> SK j -> Prop) (dl : J -> bool).
Variable mr : ∀ i, mruns (mapi i) (dig i) (zero i) (P i) (Q i) (fitS i) (fitM i).
Variable sr : ∀ j, sruns (sapi j) (sdig j) (SP j) (SQ j) (fit j) (dl j).
Local Notation xwp := (xwp dig zero P Q fitS fitM sdig SP SQ fit dl).
Local Notation exec := (xexec mapi sapi).

Record heaps : Type := Heaps { h_map : ∀ i, gmap loc (N * tree (K i)); h_set : ∀ j, gmap loc (N * tree (SK j)) }.
Definition heap_map (X : heaps) i G : heaps := Heaps (upd (h_map X) i G) (h_set X).
Definition heap_set (X : heaps) j G : heaps := Heaps (h_map X) (upd (h_set X) j G).
Implicit Types (g : xmark) (X : heaps) (s : joint) (σ : xstate) (lk : I -> gset positive).

(** One type. *)
Definition mrel i A G (b : gmap loc (block (V i) (CK i)) * loc) (x : mstate (K i) (V i) unit) : Prop :=
  ∀ u, m_rel (mr i) A G (World b.1 b.2 u) (MState (ms_map x) (ms_val x) u).
Definition srel j G (b : gmap loc (block unit (SCK j)) * loc) (x : sstate (SK j) unit) : Prop :=
  ∀ u, s_rel (sr j) G (World b.1 b.2 u) (SState (ss_set x) u).
Lemma mrel_of i A G w x : m_rel (mr i) A G w x -> mrel i A G (w_mem w, w_nxt w) (MState (ms_map x) (ms_val x) tt).
Proof. intros HR u. by apply (m_own (mr i) A G w x u). Qed.
Lemma srel_of j G w x : s_rel (sr j) G w x -> srel j G (w_mem w, w_nxt w) (SState (ss_set x) tt).
Proof. intros HR u. by apply (s_own (sr j) G w x u). Qed.
Definition mran i l m (G : gmap loc (N * tree (K i))) (b : gmap loc (block (V i) (CK i)) * loc) m' (G' : gmap loc (N * tree (K i))) (b' : gmap loc (block (V i) (CK i)) * loc) : Prop :=
  ∀ u u' : joint, ran l m G (World b.1 b.2 u) m' G' (World b'.1 b'.2 u').
Lemma mran_of i l m (G : gmap loc (N * tree (K i))) (w : world (V i) (CK i) joint) m' G' w' :
  ran l m G w m' G' w' -> mran i l m G (w_mem w, w_nxt w) m' G' (w_mem w', w_nxt w').
Proof. intros HR u u'. by apply (ran_usr l m G w m' G' w'). Qed.
Lemma mran_refl i l m G b : mran i l m G b m G b.
Proof. intros u u'. apply (ran_usr l m G (World b.1 b.2 u) m G (World b.1 b.2 u)). apply ran_refl. Qed.
Lemma mran_trans i l m1 G1 b1 m2 G2 b2 m3 G3 b3 :
  mran i l m1 G1 b1 m2 G2 b2 -> mran i l m2 G2 b2 m3 G3 b3 -> mran i l m1 G1 b1 m3 G3 b3.
Proof. intros Ha Hb u u'. eapply ran_trans; [apply (Ha u u)|apply (Hb u u')]. Qed.

(** All types. *)
Definition Rel g X s σ : Prop :=
  (∀ i, mrel i (mk_away (g_map g i)) (h_map X i) (j_map s i) (x_map σ i)) /\
  (∀ j, srel j (h_set X j) (j_set s j) (x_set σ j)) /\ x_usr σ = j_usr s.
Definition Ran lk g X s g' X' s' : Prop :=
  (∀ i, mran i (lk i) (g_map g i) (h_map X i) (j_map s i) (g_map g' i) (h_map X' i) (j_map s' i)) /\
  (∀ j, sran (g_set g j) (h_set X j) (g_set g' j) (h_set X' j)).
Lemma Ran_refl lk g X s : Ran lk g X s g X s.
Proof. split; [intros i; apply mran_refl|done]. Qed.
Lemma Ran_trans lk g1 X1 s1 g2 X2 s2 g3 X3 s3 :
  Ran lk g1 X1 s1 g2 X2 s2 -> Ran lk g2 X2 s2 g3 X3 s3 -> Ran lk g1 X1 s1 g3 X3 s3.
Proof.
  intros [m1 r1] [m2 r2]. split; [intros i; by eapply mran_trans|]. intros j. by eapply sran_trans.
Qed.

Lemma Rel_map g X s σ i m G b x :
  Rel g X s σ -> mrel i (mk_away m) G b x ->
  Rel (mark_map g i m) (heap_map X i G) (put_mem s i b) (put_map σ i x).
Proof.
  intros (HM & HS & Hu) Hx. split; [|done]. intros i'. simpl. destruct (decide (i = i')) as [<-|Hne].
  - by rewrite !upd_same.
  - rewrite !upd_other by done. apply HM.
Qed.
Lemma Ran_map lk g X s g' X' s' i m G b :
  Ran lk g X s g' X' s' -> mran i (lk i) (g_map g i) (h_map X i) (j_map s i) m G b ->
  Ran lk g X s (mark_map g' i m) (heap_map X' i G) (put_mem s' i b).
Proof.
  intros [HM HS] Hx. split; [|done]. intros i'. simpl. destruct (decide (i = i')) as [<-|Hne].
  - by rewrite !upd_same.
  - rewrite !upd_other by done. apply HM.
Qed.
Lemma Rel_set g X s σ j R G b x :
  Rel g X s σ -> srel j G b x ->
  Rel (mark_set g j R) (heap_set X j G) (put_smem s j b) (put_set σ j x).
Proof.
  intros (HM & HS & Hu) Hx. split; [done|]. split; [|done]. intros j'. simpl. destruct (decide (j = j')) as [<-|Hne].
  - by rewrite !upd_same.
  - rewrite !upd_other by done. apply HS.
Qed.
Lemma Ran_set lk g X s g' X' s' j R G b :
  Ran lk g X s g' X' s' -> sran (g_set g j) (h_set X j) R G ->
  Ran lk g X s (mark_set g' j R) (heap_set X' j G) (put_smem s' j b).
Proof.
  intros [HM HS] Hx. split; [done|]. intros j'. simpl. destruct (decide (j = j')) as [<-|Hne].
  - by rewrite !upd_same.
  - rewrite !upd_other by done. apply HS.
Qed.

(** Taking the memory of a type out and putting it back. *)
Lemma Rel_join_map g X s σ i : Rel g X s σ -> Rel g X (join_map i (split_map i s)) σ.
Proof.
  intros (HM & HS & Hu). split; [|done]. intros i'. simpl. destruct (decide (i = i')) as [<-|Hne].
  - rewrite upd_same. apply HM.
  - rewrite upd_other by done. apply HM.
Qed.
Lemma Ran_join_map lk g X s i : Ran lk g X s g X (join_map i (split_map i s)).
Proof.
  split; [|done]. intros i'. simpl. destruct (decide (i = i')) as [<-|Hne].
  - rewrite upd_same, <- surjective_pairing. apply mran_refl.
  - rewrite upd_other by done. apply mran_refl.
Qed.
Lemma Rel_join_set g X s σ j : Rel g X s σ -> Rel g X (join_set j (split_set j s)) σ.
Proof.
  intros (HM & HS & Hu). split; [done|]. split; [|done]. intros j'. simpl. destruct (decide (j = j')) as [<-|Hne].
  - rewrite upd_same. apply HS.
  - rewrite upd_other by done. apply HS.
Qed.

Definition ended lk g X s (Φ : xmark -> xstate -> Prop) s' : Prop :=
  ∃ g' σ' X', Φ g' σ' /\ Rel g' X' s' σ' /\ Ran lk g X s g' X' s'.
Definition ends {A : Type} lk g X s (Φ : A -> xmark -> xstate -> Prop) (Ψ : xmark -> xstate -> Prop) (o : jout V U CK SCK A) : Prop :=
  match o with
  | JRet x s' => ended lk g X s (Φ x) s'
  | JPanic s' => ended lk g X s Ψ s'
  | _ => False
  end.
Lemma ends_trans {A : Type} lk g1 X1 s1 g2 X2 s2 Φ Ψ (o : jout V U CK SCK A) :
  Ran lk g1 X1 s1 g2 X2 s2 -> ends lk g2 X2 s2 Φ Ψ o -> ends lk g1 X1 s1 Φ Ψ o.
Proof.
  intros Hr. assert (Ht : ∀ Φ s', ended lk g2 X2 s2 Φ s' -> ended lk g1 X1 s1 Φ s').
  { intros Φ' s' (g' & σ' & X' & HΦ & HR & Hr'). exists g', σ', X'. split; [done|]. split; [done|]. by eapply Ran_trans. }
  destruct o; cbn [ends]; try done; apply Ht.
Qed.

(** The callback of a Mod of a new key ran. *)
Lemma Rel_mem g X s σ i b x :
  Rel g X s σ -> mrel i (mk_away (g_map g i)) (h_map X i) b x -> Rel g X (put_mem s i b) (put_map σ i x).
Proof.
  intros (HM & HS & Hu) Hx. split; [|done]. intros i'. simpl. destruct (decide (i = i')) as [<-|Hne].
  - by rewrite !upd_same.
  - rewrite !upd_other by done. apply HM.
Qed.
(** Changes of everything but the maps of type i, from g, X and s. *)
Definition others i lk g X s g' X' s' : Prop :=
  (∀ i', i ≠ i' -> mran i' (lk i') (g_map g i') (h_map X i') (j_map s i') (g_map g' i') (h_map X' i') (j_map s' i')) /\
  (∀ j, sran (g_set g j) (h_set X j) (g_set g' j) (h_set X' j)).
Lemma others_lose i lk g X s m G b g' X' s' :
  Ran lk (mark_map g i m) (heap_map X i G) (put_mem s i b) g' X' s' ->
  others i lk g X s g' X' s' /\ mran i (lk i) m G b (g_map g' i) (h_map X' i) (j_map s' i).
Proof.
  intros [HM HS]. split; [split; [|done]|].
  - intros i' Hne. specialize (HM i'). simpl in HM. by rewrite !upd_other in HM by done.
  - specialize (HM i). simpl in HM. by rewrite !upd_same in HM.
Qed.
Lemma others_lock i l lk g X s b g' X' s' :
  Ran (upd (T:=λ _, gset positive) lk i l) g X (put_mem s i b) g' X' s' ->
  others i lk g X s g' X' s' /\ mran i l (g_map g i) (h_map X i) b (g_map g' i) (h_map X' i) (j_map s' i).
Proof.
  intros [HM HS]. split; [split; [|done]|].
  - intros i' Hne. specialize (HM i'). simpl in HM. by rewrite !upd_other in HM by done.
  - specialize (HM i). simpl in HM. by rewrite !upd_same in HM.
Qed.
Lemma others_put i lk g X s g' X' s' m G b :
  others i lk g X s g' X' s' -> mran i (lk i) (g_map g i) (h_map X i) (j_map s i) m G b ->
  Ran lk g X s (mark_map g' i m) (heap_map X' i G) (put_mem s' i b).
Proof.
  intros [HM HS] Hx. split; [|done]. intros i'. simpl. destruct (decide (i = i')) as [<-|Hne].
  - by rewrite !upd_same.
  - rewrite !upd_other by done. by apply HM.
Qed.
Lemma others_stay i lk g X s g' X' s' :
  others i lk g X s g' X' s' ->
  mran i (lk i) (g_map g i) (h_map X i) (j_map s i) (g_map g' i) (h_map X' i) (j_map s' i) ->
  Ran lk g X s g' X' s'.
Proof.
  intros [HM HS] Hx. split; [|done]. intros i'. destruct (decide (i = i')) as [<-|Hne]; [done|by apply HM].
Qed.

(** The loop of All. *)
Section loop.
Context {V' CK' E : Type} (join : world V' CK' joint -> joint) (split : joint -> world V' CK' joint).
Hypothesis Hjoin : ∀ lk g X s σ, Rel g X s σ -> Rel g X (join (split s)) σ /\ Ran lk g X s g X (join (split s)).
Variables (stays : heaps -> Prop) (still : xmark -> Prop) (lk : I -> gset positive) (p : E -> JM V U CK SCK bool)
  (do : E -> M V' CK' joint bool) (run : E -> (bool -> xmark -> xstate -> Prop) -> xmark -> xstate -> Prop)
  (fin Ψ : xmark -> xstate -> Prop).
Hypothesis Hstays : ∀ g X s g' X' s', Ran lk g X s g' X' s' -> still g' -> stays X -> stays X'.
Hypothesis Hdo : ∀ e w, do e w =
  match p e (join w) with JRet x s => Ret x (split s) | JPanic s => Panic (split s) | JFault => Fault | JHang => Hang end.
Hypothesis Hrun : ∀ e Φ g X s σ, Rel g X s σ -> run e Φ g σ -> ends lk g X s Φ Ψ (p e s).
Definition looping (es : list E) w : Prop := ∃ g X σ, Rel g X (join w) σ /\ stays X /\ xwp_each still run fin es g σ.

Lemma loop_next e es w w' : looping (e :: es) w -> do e w = Ret true w' -> looping es w'.
Proof.
  intros (g & X & σ & HR & HX & Hw) Hd. cbn [xwp_each] in Hw. pose proof (Hrun _ _ _ _ _ _ HR Hw) as Hx.
  rewrite Hdo in Hd. destruct (p e (join w)) as [x s|s| |]; try discriminate. injection Hd as -> <-. cbn [ends] in Hx.
  destruct Hx as (g' & σ' & X' & [Hn Hw'] & HR' & Hr). exists g', X', σ'. split; [by apply (Hjoin lk)|]. split; [|done].
  by eapply Hstays.
Qed.
Lemma loop_ends es : ∀ g X σ w, Rel g X (join w) σ -> stays X -> xwp_each still run fin es g σ ->
  match walk do es w with
  | Ret _ w' => ended lk g X (join w) fin (join w')
  | Panic w' => ended lk g X (join w) Ψ (join w')
  | _ => False
  end.
Proof.
  induction es as [|e es IH]; intros g X σ w HR HX Hw; cbn [walk xwp_each] in *.
  { exists g, σ, X. split; [done|]. split; [done|]. apply Ran_refl. }
  pose proof (Hrun _ _ _ _ _ _ HR Hw) as Hx. unfold bind. rewrite Hdo.
  destruct (p e (join w)) as [go s|s| |]; cbn [ends] in Hx; try done.
  - destruct Hx as (g' & σ' & X' & Hw' & HR' & Hr). destruct (Hjoin lk _ _ _ _ HR') as [HR2 Hr2].
    assert (Hr3 := Ran_trans _ _ _ _ _ _ _ _ _ _ Hr Hr2). destruct go.
    + destruct Hw' as [Hn Hw']. assert (HX' : stays X') by (by eapply Hstays).
      specialize (IH g' X' σ' (split s) HR2 HX' Hw'). destruct (walk do es (split s)) as [b w'|w'| |]; try done.
      all: destruct IH as (g2 & σ2 & X2 & Hf & HR3 & Hr4); exists g2, σ2, X2; split; [done|]; split; [done|]; by eapply Ran_trans.
    + by exists g', σ', X'.
  - destruct Hx as (g' & σ' & X' & Hw' & HR' & Hr). destruct (Hjoin lk _ _ _ _ HR') as [HR2 Hr2].
    exists g', σ', X'. split; [done|]. split; [done|]. by eapply Ran_trans.
Qed.
End loop.

Lemma join_ok_map i lk g X s σ : Rel g X s σ -> Rel g X (join_map i (split_map i s)) σ /\ Ran lk g X s g X (join_map i (split_map i s)).
Proof. intros HR. split; [by apply Rel_join_map|apply Ran_join_map]. Qed.
Lemma join_ok_set j lk g X s σ : Rel g X s σ -> Rel g X (join_set j (split_set j s)) σ /\ Ran lk g X s g X (join_set j (split_set j s)).
Proof.
  intros HR. split; [by apply Rel_join_set|]. split; [|done]. intros i'. apply mran_refl.
Qed.

(** Starting and ending the loop. *)
Lemma Rel_start_map g X s σ i h : Rel g X s σ -> Rel (mark_map g i (start (g_map g i) h)) X s σ.
Proof.
  intros (HM & HS & Hu). split; [|done]. intros i'. simpl. destruct (decide (i = i')) as [<-|Hne].
  - rewrite upd_same. apply HM.
  - rewrite upd_other by done. apply HM.
Qed.
Lemma Rel_note_map g X s σ i R : Rel g X s σ -> Rel (mark_map g i (note (g_map g i) R)) X s σ.
Proof.
  intros (HM & HS & Hu). split; [|done]. intros i'. simpl. destruct (decide (i = i')) as [<-|Hne].
  - rewrite upd_same. apply HM.
  - rewrite upd_other by done. apply HM.
Qed.
Lemma Ran_after_map lk g X s i h g' X' s' :
  Ran lk (mark_map g i (start (g_map g i) h)) X s g' X' s' ->
  Ran lk g X s (mark_map g' i (note (g_map g' i) (mk_rekeyed (g_map g i)))) X' s'.
Proof.
  intros [HM HS]. split; [|done]. intros i'. specialize (HM i'). simpl in *. destruct (decide (i = i')) as [<-|Hne].
  - rewrite upd_same in *. intros u u'. destruct (HM u u') as (Hf1 & Hs1 & Hk1). split; [done|]. split; [simpl; set_solver +|].
    intros h' Hn. apply Hk1. simpl in Hn. by apply not_elem_of_union in Hn as [? _].
  - by rewrite upd_other in * by done.
Qed.
Lemma Rel_mark_set g X s σ j R : Rel g X s σ -> Rel (mark_set g j R) X s σ.
Proof. done. Qed.
Lemma Ran_after_set lk g X s j h g' X' s' :
  Ran lk (mark_set g j (g_set g j ∖ {[h]})) X s g' X' s' ->
  Ran lk g X s (mark_set g' j (g_set g' j ∪ g_set g j)) X' s'.
Proof.
  intros [HM HS]. split; [done|]. intros j'. specialize (HS j'). simpl in *. destruct (decide (j = j')) as [<-|Hne].
  - rewrite upd_same in *. destruct HS as (Hs1 & Hk1). split; [apply union_subseteq_r|].
    intros h' [Hn _]%not_elem_of_union. by apply Hk1.
  - by rewrite upd_other in * by done.
Qed.

(** The world of one type in a joint state. *)
Lemma Rel_split_map g X s σ i : Rel g X s σ ->
  m_rel (mr i) (mk_away (g_map g i)) (h_map X i) (split_map i s) (MState (ms_map (x_map σ i)) (ms_val (x_map σ i)) s).
Proof. intros (HM & _ & _). apply HM. Qed.
Lemma Rel_split_set g X s σ j : Rel g X s σ -> s_rel (sr j) (h_set X j) (split_set j s) (SState (ss_set (x_set σ j)) s).
Proof. intros (_ & HS & _). apply HS. Qed.
Lemma Rel_in_map g X σ i w : Rel g X (join_map i w) σ ->
  m_rel (mr i) (mk_away (g_map g i)) (h_map X i) w (MState (ms_map (x_map σ i)) (ms_val (x_map σ i)) (w_usr w)).
Proof.
  intros (HM & _ & _). specialize (HM i (w_usr w)). simpl in HM. rewrite upd_same in HM. by destruct w.
Qed.
Lemma Rel_in_set g X σ j w : Rel g X (join_set j w) σ -> s_rel (sr j) (h_set X j) w (SState (ss_set (x_set σ j)) (w_usr w)).
Proof.
  intros (_ & HS & _). specialize (HS j (w_usr w)). simpl in HS. rewrite upd_same in HS. by destruct w.
Qed.
Lemma mstate_unit {A B} `{Countable A} (x : mstate A B unit) : MState (ms_map x) (ms_val x) tt = x.
Proof. by destruct x as [? ? []]. Qed.
Lemma sstate_unit {A} `{Countable A} (x : sstate A unit) : SState (ss_set x) tt = x.
Proof. by destruct x as [? []]. Qed.

Theorem xsim {A : Type} (p : xprog A) : ∀ lk Φ Ψ g σ X s, Rel g X s σ ->
  xwp p lk Φ Ψ g σ -> ends lk g X s Φ Ψ (exec p s).
Proof.
  induction p as [A x|A|A f c IHc|A p IHp c IHc|A i op c IHc|A i h k f IHf c IHc|A i h f IHf c IHc|A j op c IHc|A j h f IHf c IHc];
    intros lk Φ Ψ g σ X s HR Hwp; cbn [xexec xwp] in *.
  - exists g, σ, X. split; [done|]. split; [done|]. apply Ran_refl.
  - exists g, σ, X. split; [done|]. split; [done|]. apply Ran_refl.
  - pose proof HR as (HM & HS & Hu). rewrite <- Hu. eapply ends_trans; [|eapply IHc; [|exact Hwp]; split_and!; [exact HM|exact HS|done]].
    split; [intros i; apply mran_refl|done].
  - unfold jtry. pose proof (IHp _ _ _ _ _ _ _ HR Hwp) as Hp. destruct (exec p s) as [x s1|s1| |]; cbn [ends] in Hp; try done.
    all: destruct Hp as (g1 & σ1 & X1 & Hw1 & HR1 & Hr1); eapply ends_trans; [exact Hr1|]; by eapply IHc.
  - destruct Hwp as (Hmay & Hus & Hrb & Hc). set (x := x_map σ i) in *. rewrite <- (mstate_unit x) in Hmay, Hrb, Hc.
    destruct (m_call (mr i) _ _ _ _ (mop_of op) (Rel_split_map _ _ _ _ i HR)) as (r & w' & x' & G' & Hcall & Hst & HR' & Hcf & Hkeep).
    { by apply mcmd_may. }
    { intros h Hh. eapply Hus, mcmd_uses, Hh. }
    destruct (mcmd_step _ _ _ _ _ _ _ _ Hst) as [Hu Hst']. unfold jbind, with_map. rewrite Hcall.
    assert (Hw' : w_usr w' = s) by (by rewrite <- (m_usr (mr i) _ _ _ _ HR')).
    specialize (Hc _ _ Hst'). unfold join_map. rewrite Hw'. rewrite mstate_unit in Hc.
    eapply ends_trans; [|eapply IHc; [|exact Hc]].
    + apply Ran_map; [apply Ran_refl|]. apply (mran_of i _ _ _ (split_map i s) _ G' w').
      split; [|split].
      * refine (confined_mono _ _ _ _ _ _ _ Hcf). intros h Hh. eapply Hrb, mcmd_rebuilds, Hh.
      * simpl. set_solver +.
      * intros h Hh. apply Hkeep. rewrite mcmd_rekeyed. simpl in Hh. apply not_elem_of_union in Hh as [_ Hh].
        rewrite <- (mstate_unit x) in Hh. exact Hh.
    + apply Rel_map; [done|]. by apply (mrel_of i _ _ w' x').
  - destruct Hwp as (Hk & Ha & s0 & m & Hm & Hwp). pose proof (Rel_split_map _ _ _ _ i HR) as HRi.
    set (cb := λ q b, match q with At a => for_map i (exec (f a b)) | Nil => panic end).
    destruct (m !! k) as [a|] eqn:Hmk.
    + pose proof (m_stored (mr i) _ _ _ _ h k s0 m a cb HRi Hk Ha Hm Hmk) as Hrun. cbn [cb] in Hrun.
      unfold jbind, with_map. rewrite Hrun. unfold for_map.
      destruct (join_ok_map i lk _ _ _ _ HR) as [HR0 Hr0].
      pose proof (IHf a true _ _ _ _ _ _ _ HR0 Hwp) as Hf.
      destruct (exec (f a true) (join_map i (split_map i s))) as [[] s1|s1| |]; cbn [ends] in Hf; try done.
      all: destruct Hf as (g1 & σ1 & X1 & Hw1 & HR1 & Hr1); destruct (join_ok_map i lk _ _ _ _ HR1) as [HR2 Hr2].
      * eapply ends_trans; [eapply Ran_trans; [exact Hr0|eapply Ran_trans; [exact Hr1|exact Hr2]]|]. by eapply IHc.
      * exists g1, σ1, X1. split; [done|]. split; [done|]. eapply Ran_trans; [exact Hr0|eapply Ran_trans; [exact Hr1|exact Hr2]].
    + destruct Hwp as (Hlk & Hfree & Hwp).
      destruct (m_absent (mr i) (lk i) _ _ _ _ h k s0 m cb HRi Hk Ha Hm Hmk Hlk Hfree) as (a & wc & Hva & HRa & HRl & Hmod).
      cbn [ms_map ms_val ms_usr] in *.
      assert (Hwc : w_usr wc = s) by (by rewrite <- (m_usr (mr i) _ _ _ _ HRa)).
      specialize (Hwp a Hva). cbv zeta in Hwp. set (x1 := MState (ms_map (x_map σ i)) (<[a := zero i]> (ms_val (x_map σ i))) tt) in *.
      assert (Hjw : join_map i wc = put_mem s i (w_mem wc, w_nxt wc)) by (unfold join_map; by rewrite Hwc).
      (* What is left to do after the callback. *)
      assert (Hend : ∀ (lk0 : gset positive) (g0 : mark) G0, starts (lk i) (g_map g i) (h_map X i) h lk0 g0 G0 ->
        let add := λ g' σ', xwp c lk Φ Ψ (mark_map g' i (back (g_map g' i) h))
          (put_map σ' i (MState (<[h := (s0, <[k := a]> m)]> (ms_map (x_map σ' i))) (ms_val (x_map σ' i)) tt)) in
        match exec (f a false) (join_map i wc) with
        | JRet _ s2 => ∃ g2 σ2 X2, add g2 σ2 /\ Rel g2 X2 s2 σ2 /\ others i lk g X s g2 X2 s2 /\
            mran i lk0 g0 G0 (w_mem wc, w_nxt wc) (g_map g2 i) (h_map X2 i) (j_map s2 i)
        | JPanic s2 => ∃ g2 σ2 X2, Ψ g2 σ2 /\ Rel g2 X2 s2 σ2 /\ others i lk g X s g2 X2 s2 /\
            mran i lk0 g0 G0 (w_mem wc, w_nxt wc) (g_map g2 i) (h_map X2 i) (j_map s2 i)
        | _ => False
        end -> ends lk g X s Φ Ψ (jbind (with_map i (ma_Mod (mapi i) (Some h) k cb)) (λ _, exec c) s)).
      { intros lk0 g0 G0 Hs0 add Hf. destruct (Hmod _ _ _ Hs0) as [Hpan Hret].
        unfold jbind, with_map. assert (Hcb : ∀ o, exec (f a false) (join_map i wc) = o -> cb (At a) false wc =
          match o with JRet x s => Ret x (split_map i s) | JPanic s => Panic (split_map i s) | JFault => Fault | JHang => Hang end).
        { intros o <-. done. }
        destruct (exec (f a false) (join_map i wc)) as [[] s2|s2| |]; try done.
        all: specialize (Hcb _ eq_refl); destruct Hf as (g2 & σ2 & X2 & Hadd & HR2 & Ho & Hr2).
        - assert (Hr2' : ran lk0 g0 G0 wc (g_map g2 i) (h_map X2 i) (split_map i s2)).
          { specialize (Hr2 (w_usr wc) s2). by destruct wc. }
          destruct (Hret _ _ _ _ Hcb (Rel_split_map _ _ _ _ i HR2) Hr2') as (w' & G' & -> & HR' & Hr').
          assert (Hw' : w_usr w' = s2) by (by rewrite <- (m_usr (mr i) _ _ _ _ HR')).
          unfold join_map. rewrite Hw'. eapply ends_trans; [|eapply IHc; [|exact Hadd]].
          + eapply others_put; [exact Ho|]. apply (mran_of i _ _ _ (split_map i s) _ G' w' Hr').
          + apply Rel_map; [done|]. exact (mrel_of i _ _ w' _ HR').
        - assert (Hr2' : ran lk0 g0 G0 wc (g_map g2 i) (h_map X2 i) (split_map i s2)).
          { specialize (Hr2 (w_usr wc) s2). by destruct wc. }
          destruct (Hpan _ _ _ Hcb Hr2') as [-> Hr']. destruct (join_ok_map i lk _ _ _ _ HR2) as [HR3 Hr3].
          exists g2, σ2, X2. split; [done|]. split; [done|]. eapply Ran_trans; [|exact Hr3].
          eapply others_stay; [exact Ho|]. pose proof (mran_of i _ _ _ (split_map i s) _ _ (split_map i s2) Hr') as Hx.
          simpl in Hx. by destruct (j_map s i), (j_map s2 i). }
      destruct Hwp as [Hwp|[Hway Hwp]].
      * eapply (Hend (lk i) (lose (g_map g i) h) (base.delete h (h_map X i))); [by left|].
        assert (HR1 : Rel (mark_map g i (lose (g_map g i) h)) (heap_map X i (base.delete h (h_map X i))) (join_map i wc) (put_map σ i x1)).
        { rewrite Hjw. apply Rel_map; [done|]. exact (mrel_of i _ _ wc _ HRa). }
        pose proof (IHf a false _ _ _ _ _ _ _ HR1 Hwp) as Hf. rewrite Hjw in *.
        destruct (exec (f a false) _) as [[] s2|s2| |]; cbn [ends] in Hf; try done.
        all: destruct Hf as (g2 & σ2 & X2 & Hadd & HR2 & Hr2); apply others_lose in Hr2 as [Ho Hr2]; exists g2, σ2, X2; done.
      * eapply (Hend (lk i ∪ {[h]}) (g_map g i) (h_map X i)); [by right|].
        assert (HR1 : Rel g X (join_map i wc) (put_map σ i x1)).
        { rewrite Hjw. apply Rel_mem; [done|]. exact (mrel_of i _ _ wc _ (HRl Hway)). }
        pose proof (IHf a false _ _ _ _ _ _ _ HR1 Hwp) as Hf. rewrite Hjw in *.
        destruct (exec (f a false) _) as [[] s2|s2| |]; cbn [ends] in Hf; try done.
        all: destruct Hf as (g2 & σ2 & X2 & Hadd & HR2 & Hr2); apply others_lock in Hr2 as [Ho Hr2]; exists g2, σ2, X2; done.
  - destruct Hwp as (Ha & s0 & m & Hm & Hwp). cbv zeta in Hwp.
    destruct (m_all (mr i) _ _ _ _ h s0 m (Rel_split_map _ _ _ _ i HR) Ha Hm) as (T & es & HGh & Hes & Ho & Hall).
    specialize (Hwp es Hes Ho).
    set (after := λ g' : xmark, mark_map g' i (note (g_map g' i) (mk_rekeyed (g_map g i)))) in *.
    set (Ψ' := λ g' σ', Ψ (after g') σ') in *. set (fin := λ g' σ', xwp c lk Φ Ψ (after g') σ') in *.
    set (run := λ (e : K i * positive) Φ', xwp (f e.1 e.2) lk Φ' Ψ') in *.
    set (cb := λ k q, match q with At a => for_map i (exec (f k a)) | Nil => panic end).
    set (still := λ g' : xmark, h ∉ mk_rekeyed (g_map g' i)) in *.
    set (stays := λ X : heaps, h_map X i !! h = Some (s0, T)).
    set (do := λ e : K i * positive, cb e.1 (At e.2)).
    assert (Hrun : ∀ e Φ g X s σ, Rel g X s σ -> run e Φ g σ -> ends lk g X s Φ Ψ' (exec (f e.1 e.2) s)).
    { intros. by eapply IHf. }
    assert (Hstays : ∀ g X s g' X' s', Ran lk g X s g' X' s' -> still g' -> stays X -> stays X').
    { intros g1 X1 s1 g2 X2 s2 [Hx _] Hst Hsx. destruct (Hx i s1 s1) as (_ & _ & Hk). unfold stays. rewrite Hk; [done|done|].
      by rewrite Hsx. }
    assert (Hdo : ∀ e w, do e w = match exec (f e.1 e.2) (join_map i w) with JRet x s => Ret x (split_map i s)
      | JPanic s => Panic (split_map i s) | JFault => Fault | JHang => Hang end) by done.
    destruct (join_ok_map i lk _ _ _ _ (Rel_start_map _ _ _ _ i h HR)) as [HR0 Hr0].
    unfold jbind, with_map.
    rewrite (Hall (looping (join_map i) stays still run fin) cb (split_map i s)); [| | |].
    + pose proof (loop_ends (join_map i) (split_map i) (join_ok_map i) stays still lk (λ e, exec (f e.1 e.2)) do run fin Ψ' Hstays Hdo Hrun
        es _ X σ (split_map i s) HR0 HGh Hwp) as Hf.
      change (λ e : K i * positive, cb e.1 (At e.2)) with do. unfold bind.
      destruct (walk do es (split_map i s)) as [b w'|w'| |]; try done; cbn [ret].
      all: destruct Hf as (g1 & σ1 & X1 & Hf & HR1 & Hr1);
        assert (Hr2 := Ran_after_map _ _ _ _ _ _ _ _ _ (Ran_trans _ _ _ _ _ _ _ _ _ _ Hr0 Hr1)).
      * eapply ends_trans; [exact Hr2|]. eapply IHc; [|exact Hf]. by apply Rel_note_map.
      * exists (after g1), σ1, X1. split; [done|]. split; [by apply Rel_note_map|done].
    + intros es' w (g1 & X1 & σ1 & HR1 & HX1 & _). eexists _, _, _. split; [by eapply Rel_in_map|done].
    + intros k a es' w w' Hl Hd. by eapply (loop_next (join_map i) (split_map i) (join_ok_map i) stays still lk (λ e, exec (f e.1 e.2)) do run fin Ψ' Hstays Hdo Hrun (k, a)).
    + by exists (mark_map g i (start (g_map g i) h)), X, σ.
  - destruct Hwp as (Hmay & Hc). set (x := x_set σ j) in *. rewrite <- (sstate_unit x) in Hmay, Hc.
    destruct (s_call (sr j) _ _ _ (sop_of op) (Rel_split_set _ _ _ _ j HR)) as (r & w' & x' & G' & Hcall & Hst & HR' & Hkeep).
    { by apply scmd_may. }
    destruct (scmd_step _ _ _ _ _ _ Hst) as [Hu Hst']. unfold jbind, with_set. rewrite Hcall.
    assert (Hw' : w_usr w' = s) by (by rewrite <- (s_usr (sr j) _ _ _ HR')).
    specialize (Hc _ _ Hst'). unfold join_set. rewrite Hw'. rewrite sstate_unit in Hc.
    eapply ends_trans; [|eapply IHc; [|exact Hc]].
    + apply Ran_set; [apply Ran_refl|]. split; [apply union_subseteq_l|]. intros h [_ Hh]%not_elem_of_union. apply Hkeep.
      rewrite scmd_rekeyed. rewrite <- (sstate_unit x) in Hh. exact Hh.
    + apply Rel_set; [done|]. by apply (srel_of j _ w' x').
  - destruct Hwp as (s0 & X0 & Hm & Hwp). cbv zeta in Hwp.
    destruct (s_all (sr j) _ _ _ h s0 X0 (Rel_split_set _ _ _ _ j HR) Hm) as (T & ks & HGh & Hks & Ho & Hall).
    specialize (Hwp ks Hks Ho).
    set (after := λ g' : xmark, mark_set g' j (g_set g' j ∪ g_set g j)) in *.
    set (Ψ' := λ g' σ', Ψ (after g') σ') in *. set (fin := λ g' σ', xwp c lk Φ Ψ (after g') σ') in *.
    set (run := λ (k : SK j) Φ', xwp (f k) lk Φ' Ψ') in *.
    set (do := λ k, for_set j (exec (f k))).
    set (still := λ g' : xmark, h ∉ g_set g' j) in *.
    set (stays := λ X : heaps, h_set X j !! h = Some (s0, T)).
    assert (Hrun : ∀ k Φ g X s σ, Rel g X s σ -> run k Φ g σ -> ends lk g X s Φ Ψ' (exec (f k) s)).
    { intros. by eapply IHf. }
    assert (Hstays : ∀ g X s g' X' s', Ran lk g X s g' X' s' -> still g' -> stays X -> stays X').
    { intros g1 X1 s1 g2 X2 s2 [_ Hx] Hst Hsx. destruct (Hx j) as (_ & Hk). unfold stays. rewrite Hk; [done|done|].
      by rewrite Hsx. }
    assert (Hdo : ∀ k w, do k w = match exec (f k) (join_set j w) with JRet x s => Ret x (split_set j s)
      | JPanic s => Panic (split_set j s) | JFault => Fault | JHang => Hang end) by done.
    destruct (join_ok_set j lk _ _ _ _ (Rel_mark_set _ _ _ _ j (g_set g j ∖ {[h]}) HR)) as [HR0 Hr0].
    unfold jbind, with_set.
    rewrite (Hall (looping (join_set j) stays still run fin) do (split_set j s)); [| | |].
    + pose proof (loop_ends (join_set j) (split_set j) (join_ok_set j) stays still lk (λ k, exec (f k)) do run fin Ψ' Hstays Hdo Hrun
        ks _ X σ (split_set j s) HR0 HGh Hwp) as Hf. unfold bind.
      destruct (walk do ks (split_set j s)) as [b w'|w'| |]; try done; cbn [ret].
      all: destruct Hf as (g1 & σ1 & X1 & Hf & HR1 & Hr1);
        assert (Hr2 := Ran_after_set _ _ _ _ _ _ _ _ _ (Ran_trans _ _ _ _ _ _ _ _ _ _ Hr0 Hr1)).
      * eapply ends_trans; [exact Hr2|]. eapply IHc; [|exact Hf]. by apply Rel_mark_set.
      * exists (after g1), σ1, X1. split; [done|]. split; [by apply Rel_mark_set|done].
    + intros ks' w (g1 & X1 & σ1 & HR1 & HX1 & _). eexists _, _. split; [by eapply Rel_in_set|done].
    + intros k ks' w w' Hl Hd. by eapply (loop_next (join_set j) (split_set j) (join_ok_set j) stays still lk (λ k, exec (f k)) do run fin Ψ' Hstays Hdo Hrun k).
    + by exists (mark_set g j (g_set g j ∖ {[h]})), X, σ.
Qed.

Lemma Rel_init u : Rel xnone (Heaps (λ _, ∅) (λ _, ∅)) (joint0 u) (xinit u).
Proof.
  split; [|split; [|done]].
  - intros i u'. apply (m_own (mr i) ∅ ∅ (empty_world (joint0 u)) (minit (joint0 u)) u'), m_init.
  - intros j u'. apply (s_own (sr j) ∅ (empty_world (joint0 u)) (sinit (joint0 u)) u'), s_init.
Qed.
Lemma xrun u (A : Type) (p : xprog A) (Φ : A -> U -> Prop) (Ψ : U -> Prop) :
  xwp p (λ _, ∅) (λ x _ σ, Φ x (x_usr σ)) (λ _ σ, Ψ (x_usr σ)) xnone (xinit u) ->
  match exec p (joint0 u) with
  | JRet x s => Φ x (j_usr s)
  | JPanic s => Ψ (j_usr s)
  | _ => False
  end.
Proof.
  intros Hwp. pose proof (xsim p _ _ _ _ _ _ _ (Rel_init u) Hwp) as Hs.
  destruct (exec p (joint0 u)) as [x s|s| |]; cbn [ends] in Hs; [| |done..].
  all: destruct Hs as (g & σ & X & HΦ & (_ & _ & Hu) & _); by rewrite <- Hu.
Qed.
End sim.

(** ** Rules, one for each form of program with calls *)
Section rules.
Context {I J : Type} `{EqDecision I, EqDecision J} {K V : I -> Type} {SK : J -> Type} {U : Type}.
Context `{∀ i, EqDecision (K i)} `{∀ i, Countable (K i)} `{∀ j, EqDecision (SK j)} `{∀ j, Countable (SK j)}.
Context (dig : ∀ i, N -> K i -> nat -> N) (zero : ∀ i, V i) (P : ∀ i, K i -> Prop) (Q : I -> N -> Prop)
  (fitS fitM : ∀ i, N -> list (K i) -> K i -> Prop).
Context (sdig : ∀ j, N -> SK j -> nat -> N) (SP : ∀ j, SK j -> Prop) (SQ : J -> N -> Prop)
  (fit : ∀ j, N -> list (SK j) -> SK j -> Prop) (dl : J -> bool).
Local Notation xwp := (xwp dig zero P Q fitS fitM sdig SP SQ fit dl).
Context (lk : I -> gset positive) {A : Type} (Φ : A -> xmark I J -> xstate K V SK U -> Prop) (Ψ : xmark I J -> xstate K V SK U -> Prop).
Implicit Types (σ : xstate K V SK U) (g : xmark I J).

Lemma xwp_map i op c g σ : may (P i) (Q i) (fitS i) (fitM i) (x_map σ i) (mop_of op) ->
  (∀ h, uses (U:=unit) (mop_of op) h -> h ∉ mk_away (g_map g i)) -> (∀ h, rebuilds (x_map σ i) (mop_of op) h -> h ∉ lk i) ->
  (∀ r x, mstep (dig i) (zero i) (x_map σ i) (mop_of op) r x ->
     xwp (c r) lk Φ Ψ (mark_map g i (note (g_map g i) (rekeyed (x_map σ i) (mop_of op)))) (put_map σ i x)) ->
  xwp (XMap i op c) lk Φ Ψ g σ.
Proof. intros. done. Qed.
(** The callback does not use h. *)
Lemma xwp_mod_new i h k s m f c g σ : P i k -> h ∉ mk_away (g_map g i) -> ms_map (x_map σ i) !! h = Some (s, m) -> m !! k = None ->
  h ∉ lk i -> fitM i s (map_to_list m).*1 k ->
  (∀ a, ms_val (x_map σ i) !! a = None ->
     xwp (f a false) lk (λ _ g' σ', xwp c lk Φ Ψ (mark_map g' i (back (g_map g' i) h))
       (put_map σ' i (MState (<[h := (s, <[k := a]> m)]> (ms_map (x_map σ' i))) (ms_val (x_map σ' i)) tt)))
       Ψ (mark_map g i (lose (g_map g i) h)) (put_map σ i (MState (ms_map (x_map σ i)) (<[a := zero i]> (ms_val (x_map σ i))) tt))) ->
  xwp (XMod i h k f c) lk Φ Ψ g σ.
Proof.
  intros Hk Ha Hm E Hl Hf Hw. split; [done|]. split; [done|]. exists s, m. split; [done|]. rewrite E.
  split; [done|]. split; [done|]. intros a Hva. left. by apply Hw.
Qed.
Lemma xwp_all i h s m f c g σ : h ∉ mk_away (g_map g i) -> ms_map (x_map σ i) !! h = Some (s, m) ->
  (∀ es, es ≡ₚ map_to_list m -> in_order (dig i) s es.*1 ->
     xwp_each (λ g', h ∉ mk_rekeyed (g_map g' i))
       (λ e Φ', xwp (f e.1 e.2) lk Φ' (λ g' σ', Ψ (mark_map g' i (note (g_map g' i) (mk_rekeyed (g_map g i)))) σ'))
       (λ g' σ', xwp c lk Φ Ψ (mark_map g' i (note (g_map g' i) (mk_rekeyed (g_map g i)))) σ') es (mark_map g i (start (g_map g i) h)) σ) ->
  xwp (XRange i h f c) lk Φ Ψ g σ.
Proof. intros Ha Hm Hw. split; [done|]. by exists s, m. Qed.
Lemma xwp_set j op c g σ : smay (SP j) (SQ j) (fit j) (dl j) (x_set σ j) (sop_of op) ->
  (∀ r x, sstep (sdig j) (x_set σ j) (sop_of op) r x ->
     xwp (c r) lk Φ Ψ (mark_set g j (g_set g j ∪ srekeyed (x_set σ j) (sop_of op))) (put_set σ j x)) ->
  xwp (XSet j op c) lk Φ Ψ g σ.
Proof. intros. done. Qed.
Lemma xwp_set_all j h s X f c g σ : ss_set (x_set σ j) !! h = Some (s, X) ->
  (∀ ks, ks ≡ₚ elements X -> in_order (sdig j) s ks ->
     xwp_each (λ g', h ∉ g_set g' j)
       (λ k Φ', xwp (f k) lk Φ' (λ g' σ', Ψ (mark_set g' j (g_set g' j ∪ g_set g j)) σ'))
       (λ g' σ', xwp c lk Φ Ψ (mark_set g' j (g_set g' j ∪ g_set g j)) σ') ks (mark_set g j (g_set g j ∖ {[h]})) σ) ->
  xwp (XEach j h f c) lk Φ Ψ g σ.
Proof. intros Hm Hw. by exists s, X. Qed.
Lemma xwp_try p c g σ : xwp p lk (λ _, xwp (c false) lk Φ Ψ) (xwp (c true) lk Φ Ψ) g σ -> xwp (XTry p c) lk Φ Ψ g σ.
Proof. done. Qed.
Lemma xwp_done x g σ : Φ x g σ -> xwp (XDone x) lk Φ Ψ g σ.
Proof. done. Qed.
Lemma xwp_own f c g σ : xwp (c (x_usr σ)) lk Φ Ψ g (XState (x_map σ) (x_set σ) (f (x_usr σ))) -> xwp (XOwn f c) lk Φ Ψ g σ.
Proof. done. Qed.
Lemma xwp_throw g σ : Ψ g σ -> xwp XThrow lk Φ Ψ g σ.
Proof. done. Qed.
End rules.
