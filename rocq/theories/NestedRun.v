(** Programs with callbacks, for every map type. *)
From stdpp Require Import base numbers list gmap.
From Verif Require Import GoInt Mem Hash Amt Families Rep Spec SpecFacts Client Types Guards Heap Refine Pack Sep Nested NestedSim.
Local Open Scope nat_scope.

(** ** The calculus is monotone *)
Section mono.
Context `{Countable K} {V U : Type} (dig : N -> K -> nat -> N) (zero : V).
Local Notation mstate := (mstate K V U).
Local Notation nprog := (nprog K V U).
Implicit Types (σ : mstate) (g : mark).
Variables (P P' : K -> Prop) (Q Q' : N -> Prop) (fitS fitS' fitM fitM' : N -> list K -> K -> Prop).
Hypothesis HP : ∀ k, P k -> P' k.
Hypothesis HQ : ∀ s, Q s -> Q' s.
Definition fits_in (fit fit' : N -> list K -> K -> Prop) : Prop :=
  ∀ s (m : gmap K positive) k, Q s -> (∀ k, is_Some (m !! k) -> P k) -> P k -> m !! k = None ->
    fit s (map_to_list m).*1 k -> fit' s (map_to_list m).*1 k.
Hypothesis HS : fits_in fitS fitS'.
Hypothesis HM : fits_in fitM fitM'.

(** The seeds and keys of all maps are considered ones. *)
Definition clean σ : Prop := ∀ h s m, ms_map σ !! h = Some (s, m) -> Q s /\ ∀ k, is_Some (m !! k) -> P k.
Lemma clean_insert h s m σ v u : clean σ -> Q s -> (∀ k, is_Some (m !! k) -> P k) ->
  clean (MState (<[h := (s, m)]> (ms_map σ)) v u).
Proof.
  intros Hc Hs Hm h' s' m' Hx. simpl in Hx. destruct (decide (h' = h)) as [->|Hne].
  - rewrite lookup_insert in Hx. by injection Hx as <- <-.
  - rewrite lookup_insert_ne in Hx by done. by eapply Hc.
Qed.
Lemma clean_add h s m k a σ v u : clean σ -> Q s -> (∀ k, is_Some (m !! k) -> P k) -> P k ->
  clean (MState (<[h := (s, <[k := a]> m)]> (ms_map σ)) v u).
Proof.
  intros Hc Hs Hm Hk. apply clean_insert; [done|done|]. intros k'. rewrite lookup_insert_is_Some.
  intros [<-|[_ ?]]; auto.
Qed.
Lemma clean_put σ h k v u σ' : P k -> clean σ -> put σ h k v u σ' -> clean σ'.
Proof.
  intros Hk Hc (s & m & Hm & Hx). destruct (Hc _ _ _ Hm) as [Hs Hks]. destruct (m !! k); [by subst|].
  destruct Hx as (p & _ & ->). by apply clean_add.
Qed.
Lemma may_clean σ op r σ' : may P Q fitS fitM σ op -> mstep dig zero σ op r σ' -> clean σ -> clean σ'.
Proof.
  intros Hm Hst Hc.
  destruct op as [s|h k v|h k f|h k|h k|h k|h k|h|h|h f|p|p v]; cbn [may mstep] in *; try (by destruct Hst as [-> _]).
  - destruct Hst as (h & _ & _ & ->). apply clean_insert; [done|done|]. intros k [a Hk]. by rewrite lookup_empty in Hk.
  - destruct Hst as [_ Hp]. by eapply clean_put; [apply Hm| |].
  - destruct Hst as [_ Hp]. destruct (f _ _ _). by eapply clean_put; [apply Hm| |].
  - destruct Hst as (_ & s & m & Hh & ->). destruct (Hc _ _ _ Hh) as [Hs Hks]. apply clean_insert; [done|done|].
    intros k' [a [_ Ha]%lookup_delete_Some]. eauto.
  - by destruct Hst as (_ & s & m & es & _ & _ & _ & ->).
  - by destruct Hst as (_ & _ & ->).
Qed.

Lemma may_add_mono fit fit' σ h k : fits_in fit fit' -> clean σ -> P k -> may_add fit σ h k -> may_add fit' σ h k.
Proof.
  intros HW Hc Hk (s & m & Hm & Hx). exists s, m. split; [done|]. destruct (Hc _ _ _ Hm) as [Hs Hks].
  destruct (m !! k) eqn:E; [by left; eauto|]. right. destruct Hx as [[? ?]|Hx]; [done|]. by apply HW.
Qed.
Lemma may_mono σ op : clean σ -> may P Q fitS fitM σ op -> may P' Q' fitS' fitM' σ op.
Proof.
  intros Hc. destruct op; cbn [may]; try done; try (by intros ?; apply HQ); try (by intros [??]; split; auto).
  - intros [??]. split; [auto|]. by eapply may_add_mono.
  - intros [??]. split; [auto|]. by eapply may_add_mono.
Qed.

Lemma wp_each_mono h (run run' : K -> positive -> post bool -> mark -> mstate -> Prop) (fin fin' : mark -> mstate -> Prop) :
  (∀ k a (Φ Φ' : post bool) g σ, clean σ -> (∀ x g σ, clean σ -> Φ x g σ -> Φ' x g σ) -> run k a Φ g σ -> run' k a Φ' g σ) ->
  (∀ g σ, clean σ -> fin g σ -> fin' g σ) ->
  ∀ es g σ, clean σ -> wp_each h run fin es g σ -> wp_each h run' fin' es g σ.
Proof.
  intros Hrun Hfin. induction es as [|[k a] es IH]; intros g σ Hc; cbn [wp_each]; [auto|].
  apply Hrun; [done|]. intros [] g' σ' Hc'; [|auto]. intros [Hn Hw]. split; [done|]. by apply IH.
Qed.

Lemma wp_mono {A : Type} (p : nprog A) : ∀ lk (Φ Φ' : post A) (Ψ Ψ' : mark -> mstate -> Prop) g σ,
  (∀ x g σ, clean σ -> Φ x g σ -> Φ' x g σ) -> (∀ g σ, clean σ -> Ψ g σ -> Ψ' g σ) -> clean σ ->
  wp dig zero P Q fitS fitM p lk Φ Ψ g σ -> wp dig zero P' Q' fitS' fitM' p lk Φ' Ψ' g σ.
Proof.
  induction p as [A x|A op c IHc|A f c IHc|A|A h k f IHf c IHc|A h f IHf c IHc|A p IHp c IHc];
    intros lk Φ Φ' Ψ Ψ' g σ HΦ HΨ Hcl; cbn [wp].
  - by apply HΦ.
  - intros (Hm & Hu & Hr & Hc). split; [by apply may_mono|]. split; [done|]. split; [done|].
    intros r σ' Hst. eapply IHc; [done|done| |by apply Hc]. by eapply may_clean.
  - by apply IHc.
  - by apply HΨ.
  - intros (Hk & Ha & s & m & Hm & Hw). split; [auto|]. split; [done|]. exists s, m. split; [done|].
    destruct (Hcl _ _ _ Hm) as [Hs Hks]. destruct (m !! k) as [a|] eqn:E.
    + eapply IHf; [|exact HΨ|done|exact Hw]. intros x g' σ' Hc'. by apply IHc.
    + destruct Hw as (Hl & Hfree & Hw). split; [done|]. split; [by apply HM|]. intros a Hva. cbv zeta.
      destruct (Hw a Hva) as [Hx|[Hn Hx]]; [left|right; split; [done|]]; cbv zeta in Hx; (eapply IHf; [|exact HΨ| |exact Hx]);
        try done; intros x g' σ' Hc'; apply IHc; try done; by apply clean_add.
  - intros (Ha & s & m & Hm & Hw). split; [done|]. exists s, m. split; [done|]. intros es Hes Ho.
    eapply wp_each_mono; [| |done|by apply Hw].
    + intros k a Φ1 Φ2 g' σ' Hc' HΦ1. apply IHf; [done| |done]. intros g1 σ1. apply HΨ.
    + intros g' σ'. by apply IHc.
  - apply IHp; [intros x| |done]; intros g' σ'; by apply IHc.
Qed.
End mono.

(** ** Rules, one for each form of program *)
Section rules.
Context `{Countable K} {V U : Type} (dig : N -> K -> nat -> N) (zero : V).
Context (P : K -> Prop) (Q : N -> Prop) (fitS fitM : N -> list K -> K -> Prop) (lk : gset positive).
Context {A : Type} (Φ : A -> mark -> mstate K V U -> Prop) (Ψ : mark -> mstate K V U -> Prop).
Implicit Types (σ : mstate K V U) (g : mark).
Local Notation wp := (wp dig zero P Q fitS fitM).

Lemma wp_done x g σ : Φ x g σ -> wp (NDone x) lk Φ Ψ g σ.
Proof. done. Qed.
Lemma wp_call op c g σ : may P Q fitS fitM σ op -> (∀ h, uses op h -> h ∉ mk_away g) -> (∀ h, rebuilds σ op h -> h ∉ lk) ->
  (∀ r σ', mstep dig zero σ op r σ' -> wp (c r) lk Φ Ψ (note g (rekeyed σ op)) σ') -> wp (NCall op c) lk Φ Ψ g σ.
Proof. intros. done. Qed.
Lemma wp_throw g σ : Ψ g σ -> wp NThrow lk Φ Ψ g σ.
Proof. done. Qed.
Lemma wp_mod_stored h k s m a f c g σ : P k -> h ∉ mk_away g -> ms_map σ !! h = Some (s, m) -> m !! k = Some a ->
  wp (f a true) lk (λ _, wp c lk Φ Ψ) Ψ g σ -> wp (NMod h k f c) lk Φ Ψ g σ.
Proof. intros Hk Ha Hm E Hw. split; [done|]. split; [done|]. exists s, m. split; [done|]. by rewrite E. Qed.
(** The callback does not use h. *)
Lemma wp_mod_new h k s m f c g σ : P k -> h ∉ mk_away g -> ms_map σ !! h = Some (s, m) -> m !! k = None ->
  h ∉ lk -> fitM s (map_to_list m).*1 k ->
  (∀ a, ms_val σ !! a = None -> wp (f a false) lk
     (λ _ g' σ', wp c lk Φ Ψ (back g' h) (MState (<[h := (s, <[k := a]> m)]> (ms_map σ')) (ms_val σ') (ms_usr σ'))) Ψ (lose g h)
     (MState (ms_map σ) (<[a := zero]> (ms_val σ)) (ms_usr σ))) -> wp (NMod h k f c) lk Φ Ψ g σ.
Proof.
  intros Hk Ha Hm E Hl Hf Hw. split; [done|]. split; [done|]. exists s, m. split; [done|]. rewrite E.
  split; [done|]. split; [done|]. intros a Hva. left. by apply Hw.
Qed.
(** No key is in the way, and the callback does not rebuild h. *)
Lemma wp_mod_free h k s m f c g σ : P k -> h ∉ mk_away g -> ms_map σ !! h = Some (s, m) -> m !! k = None ->
  h ∉ lk -> fitM s (map_to_list m).*1 k -> (∀ k', ¬ in_way dig s (map_to_list m).*1 k k') ->
  (∀ a, ms_val σ !! a = None -> wp (f a false) (lk ∪ {[h]})
     (λ _ g' σ', wp c lk Φ Ψ (back g' h) (MState (<[h := (s, <[k := a]> m)]> (ms_map σ')) (ms_val σ') (ms_usr σ'))) Ψ g
     (MState (ms_map σ) (<[a := zero]> (ms_val σ)) (ms_usr σ))) -> wp (NMod h k f c) lk Φ Ψ g σ.
Proof.
  intros Hk Ha Hm E Hl Hf Hway Hw. split; [done|]. split; [done|]. exists s, m. split; [done|]. rewrite E.
  split; [done|]. split; [done|]. intros a Hva. right. split; [done|]. by apply Hw.
Qed.
Lemma wp_all h s m f c g σ : h ∉ mk_away g -> ms_map σ !! h = Some (s, m) ->
  (∀ es, es ≡ₚ map_to_list m -> in_order dig s es.*1 ->
     wp_each h (λ k a Φ', wp (f k a) lk Φ' (λ g' σ', Ψ (note g' (mk_rekeyed g)) σ'))
       (λ g' σ', wp c lk Φ Ψ (note g' (mk_rekeyed g)) σ') es (start g h) σ) ->
  wp (NAll h f c) lk Φ Ψ g σ.
Proof. intros Ha Hm Hw. split; [done|]. by exists s, m. Qed.
Lemma wp_try p c g σ : wp p lk (λ _, wp (c false) lk Φ Ψ) (wp (c true) lk Φ Ψ) g σ -> wp (NTry p c) lk Φ Ψ g σ.
Proof. done. Qed.
End rules.

Section adequate.
Context {V U : Type} (zero : V) (fuel : nat) (u0 : U).
Hypothesis Hfuel : 256 <= fuel.

(** A history that stores the keys ks in a map with seed s. *)
Lemma history_stored `{Countable K} s h (ks : list K) :
  ∃ tr : list (mop K V U * mres V), (∀ s', (MNew s', RHandle h) ∈ tr <-> s' = s) /\ stored tr h = list_to_set ks.
Proof.
  induction ks as [|k ks (tr & Hn & Hs)].
  - exists [(MNew s, RHandle h)]. split; [|done]. intros s'. rewrite elem_of_list_singleton. naive_solver.
  - exists ((MSet h k zero, RUnit) :: tr). split.
    + intros s'. rewrite elem_of_cons, Hn. naive_solver.
    + cbn [stored]. rewrite Pos.eqb_refl, Hs. done.
Qed.

Lemma clean_init `{Countable K} (P : K -> Prop) Q : clean P Q (minit (V:=V) u0).
Proof. intros h s m Hx. simpl in Hx. by rewrite lookup_empty in Hx. Qed.

Lemma nested_map `{Countable K} {CK} (api : mapapi K V CK U) dig P Q WS WM :
  map_type zero fuel api dig (λ tr op, mallowed P Q tr op /\ ins_guard dig WS WM tr op) ->
  ∀ (A : Type) (p : nprog K V U A) (Φ : A -> U -> Prop) (Ψ : U -> Prop),
  wp dig zero P Q (free dig WS) (free dig WM) p ∅ (λ x _ σ, Φ x (ms_usr σ)) (λ _ σ, Ψ (ms_usr σ)) (Mark ∅ ∅) (minit u0) ->
  match nexec api p (empty_world u0) with
  | Ret x w => Φ x (w_usr w)
  | Panic w => Ψ (w_usr w)
  | _ => False
  end.
Proof.
  intros Ht A p Φ Ψ Hwp. destruct (map_pack zero fuel api dig _ Ht) as [].
  assert (HP : ∀ k, P k -> ly_ok L k).
  { intros k Hk. destruct (Hok [(MNew 0%N, RHandle xH)] (MGet xH k)) as [[_ Hx] _]; [|done].
    split; [|done]. split; [|done]. exists 0%N. by left. }
  assert (HQ : ∀ s, Q s -> Q0 s).
  { intros s Hs. by destruct (Hok [] (MNew s)) as [Hx _]. }
  assert (Hfr : ∀ (W W' : N -> K -> K -> nat -> Prop) (op : loc -> K -> mop K V U),
    (∀ tr h k, ins_guard dig WS WM tr (op h k) <-> (k ∈ stored tr h \/ ∀ s, (MNew s, RHandle h) ∈ tr -> free dig W s (elements (stored tr h)) k)) ->
    (∀ tr h k, ins_guard dig WS0 WM0 tr (op h k) <-> (k ∈ stored tr h \/ ∀ s, (MNew s, RHandle h) ∈ tr -> free dig W' s (elements (stored tr h)) k)) ->
    (∀ tr h k, mallowed P Q tr (op h k) <-> (∃ s, (MNew s, RHandle h) ∈ tr) /\ P k) -> fits_in P Q (free dig W) (free dig W')).
  { intros W W' op H1 H2 H3 s m k _ _ Hk Hm Hfree. set (ks := (map_to_list m).*1) in *.
    destruct (history_stored s xH ks) as (tr & Hn & Hs).
    assert (Hnd : NoDup ks) by apply NoDup_fst_map_to_list.
    assert (Hel : elements (stored tr xH) ≡ₚ ks).
    { rewrite Hs. by apply elements_list_to_set. }
    destruct (Hok tr (op xH k)) as [_ Hg].
    - split.
      + apply H3. split; [|done]. exists s. by apply Hn.
      + apply H1. right. intros s' ->%Hn. by eapply free_perm.
    - apply H2 in Hg as [Hin|Hg].
      + exfalso. rewrite Hs, elem_of_list_to_set in Hin. apply elem_of_list_fmap in Hin as ([k' a] & -> & Hin).
        apply elem_of_map_to_list in Hin. simpl in Hm. congruence.
      + eapply free_perm; [exact Hel|]. apply Hg. by apply Hn. }
  assert (HfS : fits_in P Q (free dig WS) (free dig WS0)) by (apply (Hfr _ _ (λ h k, MSet h k zero)); done).
  assert (HfM : fits_in P Q (free dig WM) (free dig WM0)) by (apply (Hfr _ _ (λ h k, MMod h k (λ u v _, (u, v)))); done).
  pose proof (wp_mono dig zero P P Q Q0 _ _ _ _ (λ k Hk, Hk) HQ HfS HfM p ∅ _ _ _ _ _ _
    (λ _ _ _ _ Hx, Hx) (λ _ _ _ Hx, Hx) (clean_init P Q) Hwp) as Hwp'.
  assert (HR : RelA F L Q0 ∅ ∅ (empty_world u0) (minit u0)) by apply RelA_init.
  pose proof (nsim F L Q0 HF HL Hcell zero fuel Hfuel dig Hdig FS FM sop mdop vs WS0 WM0 HFS HFM HWS HWM Hvs Hsop Hmop Hearly
    api HSet HMod HDel HGet HVal HPtr HAll P HP p ∅ _ _ (Mark ∅ ∅) (minit u0) ∅ (empty_world u0) HR Hwp') as Hs.
  destruct (nexec api p (empty_world u0)) as [x w|w| |]; cbn [ends] in Hs; [| |done..].
  all: destruct Hs as (g & σ & G & HΦ & [(_ & _ & _ & Hu) _] & _); by rewrite <- Hu.
Qed.

(** Keys that the hash separates always fit. *)
Lemma nested_sep_map `{Countable K} {CK} (api : mapapi K V CK U) dig P Q WS WM :
  map_type zero fuel api dig (λ tr op, mallowed P Q tr op /\ ins_guard dig WS WM tr op) ->
  separates dig P Q 240 -> ways dig P Q WS -> ways dig P Q WM ->
  ∀ (A : Type) (p : nprog K V U A) (Φ : A -> U -> Prop) (Ψ : U -> Prop),
  let anywhere := λ _ _ _, True in
  wp dig zero P Q anywhere anywhere p ∅ (λ x _ σ, Φ x (ms_usr σ)) (λ _ σ, Ψ (ms_usr σ)) (Mark ∅ ∅) (minit u0) ->
  match nexec api p (empty_world u0) with
  | Ret x w => Φ x (w_usr w)
  | Panic w => Ψ (w_usr w)
  | _ => False
  end.
Proof.
  intros Ht Hs HWS HWM A p Φ Ψ anywhere Hwp. eapply (nested_map api dig P Q WS WM Ht).
  assert (Hin : ∀ W, ways dig P Q W -> fits_in P Q anywhere (free dig W)).
  { intros W HW s m k HQ Hm Hk _ _. eapply sep_free; [done|done|done| |done].
    intros k' ([k1 a] & -> & Hx)%elem_of_list_fmap. apply elem_of_map_to_list in Hx. simpl. eauto. }
  exact (wp_mono dig zero P P Q Q _ _ _ _ (λ k Hk, Hk) (λ s Hs, Hs) (Hin _ HWS) (Hin _ HWM) p ∅ _ _ _ _ _ _
    (λ _ _ _ _ Hx, Hx) (λ _ _ _ Hx, Hx) (clean_init P Q) Hwp).
Qed.
End adequate.
