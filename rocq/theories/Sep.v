(** Histories over keys that the hash separates: the conditions on single calls
    follow from conditions on the keys. *)
From stdpp Require Import base numbers list gmap.
From Verif Require Import GoInt Mem Hash Amt Families Spec SpecFacts Client Types Guards Pack.
Local Open Scope nat_scope.

(** int64 keys; two of them either lie in 0..2^32-1 or differ in their first two digits. *)
Definition int_keys (sum64 : N -> bytes -> N) (P : Z -> Prop) (Q : N -> Prop) : Prop :=
  (∀ k, P k -> is_int64 k) /\
  ∀ s k k', Q s -> P k -> P k' -> k ≠ k' -> (0 <= k < 2 ^ 32)%Z \/ separated 1 (int_digit sum64 s k) (int_digit sum64 s k').

(** Hash does not tell iter = d mod 16 from iter = d / 16 for d < n. *)
Definition rehash_ok {K} (Hash : K -> N -> N -> N) (P : K -> Prop) (Q : N -> Prop) (n : nat) : Prop :=
  ∀ s k d, Q s -> P k -> d < n -> Hash k s (N.of_nat (d mod 16)) = Hash k s (N.of_nat (d / 16)).

(** W holds for all keys P that share d + 1 digits. *)
Definition ways {K} (dig : N -> K -> nat -> N) (P : K -> Prop) (Q : N -> Prop) (W : N -> K -> K -> nat -> Prop) : Prop :=
  ∀ s k k' d, Q s -> P k -> P k' -> k ≠ k' -> d < common 241 (dig s k) (dig s k') -> W s k k' d.

Lemma separates_mono {K} (dig : N -> K -> nat -> N) P Q n n' : n <= n' -> separates dig P Q n -> separates dig P Q n'.
Proof. intros Hn Hs s k k' HQ Hk Hk' Hne. destruct (Hs s k k' HQ Hk Hk' Hne) as (d & Hd & Hx). exists d. split; [lia|done]. Qed.

Lemma common_eq n : ∀ x y d, d < common n x y -> x d = y d.
Proof.
  induction n as [|n IH]; intros x y d Hd; simpl in Hd; [lia|].
  destruct (N.eqb_spec (x 0) (y 0)) as [He|]; [|lia]. destruct d as [|d]; [done|].
  apply (IH (λ i, x (S i)) (λ i, y (S i))). lia.
Qed.

Lemma int_keys_ways sum64 P Q : int_keys sum64 P Q -> ways (int_digit sum64) P Q (int_way sum64).
Proof.
  intros [_ Hk] s k k' d HQ HP HP' Hne Hd. destruct (Hk s k' k HQ HP' HP (not_eq_sym Hne)) as [Hx|(e & He & Hx)]; [by left|right].
  assert (common 241 (int_digit sum64 s k) (int_digit sum64 s k') <= e).
  { apply sep_common. exists e. split; [lia|]. intros Hc. by apply Hx. }
  assert (d = 0 /\ e = 1) as [-> ->].
  { assert (e ≠ 0); [|lia]. intros ->. lia. }
  intros Hc. by apply Hx.
Qed.
Lemma rehash_ways {K} (Hash : K -> N -> N -> N) P Q n : separates (gdigit Hash) P Q n -> rehash_ok Hash P Q n ->
  ways (gdigit Hash) P Q (set_way Hash).
Proof.
  intros Hs Hr s k k' d HQ HP HP' Hne Hd. unfold set_way. rewrite Hr; [done..|].
  pose proof (sep_common _ _ _ (Hs s k k' HQ HP HP' Hne)). lia.
Qed.
Lemma any_ways {K} (dig : N -> K -> nat -> N) P Q : ways dig P Q any_way.
Proof. by intros. Qed.

Section maps.
Context `{Countable K} {V CK U : Type} (u0 : U).
Variables (api : mapapi K V CK U) (dig : N -> K -> nat -> N) (P : K -> Prop) (Q : N -> Prop).
Implicit Types (ok : list (mop K V U * mres V) -> mop K V U -> Prop) (tr : list (mop K V U * mres V)).

Lemma mrun_impl ok ok' : (∀ tr w op, mrun api ok' u0 tr w -> ok' tr op -> ok tr op) ->
  ∀ tr w, mrun api ok' u0 tr w -> mrun api ok u0 tr w.
Proof. intros Himp tr w. induction 1 as [|tr w op res w' Hr IH Ho Hc]; [constructor|econstructor; [exact IH| |exact Hc]]. by eapply Himp. Qed.

Lemma mrun_keys ok tr w : (∀ tr op, ok tr op -> mallowed P Q tr op) -> mrun api ok u0 tr w ->
  (∀ h k, k ∈ stored tr h -> P k) /\ ∀ s r, (MNew s, r) ∈ tr -> Q s.
Proof.
  intros Hall. induction 1 as [|tr w op res w' Hr [IH1 IH2] Ho Hc]; [split; set_solver|].
  apply Hall in Ho. split.
  - intros h k Hk. destruct op; simpl in *; try (by eapply IH1); case_match; try (by eapply IH1).
    + apply elem_of_union in Hk as [Hk%elem_of_singleton|Hk]; [subst; tauto|by eapply IH1].
    + apply elem_of_union in Hk as [Hk%elem_of_singleton|Hk]; [subst; tauto|by eapply IH1].
    + apply elem_of_difference in Hk as [Hk _]. by eapply IH1.
  - intros s r [[= <- <-]|Hin]%elem_of_cons; [done|by eapply IH2].
Qed.

Lemma sep_free W s ks k : separates dig P Q 240 -> ways dig P Q W -> Q s -> (∀ k', k' ∈ ks -> P k') -> P k -> free dig W s ks k.
Proof.
  intros Hs HW HQ Hks Hk k' (Hin & Hne & Hd). split; [apply Hs; auto|]. apply HW; auto.
Qed.

Lemma sep_guard ok WS WM tr w op : (∀ tr op, ok tr op -> mallowed P Q tr op) ->
  separates dig P Q 240 -> ways dig P Q WS -> ways dig P Q WM -> mrun api ok u0 tr w -> mallowed P Q tr op ->
  ins_guard dig WS WM tr op.
Proof.
  intros Hall Hs HWS HWM Hr Ho. destruct (mrun_keys ok tr w Hall Hr) as [Hk Hq].
  destruct op; simpl in *; try done; right; intros s Hin; apply sep_free; eauto; try tauto;
    intros k' Hk'%elem_of_elements; by eapply Hk.
Qed.
Lemma guard_set (WS WS' : N -> K -> K -> nat -> Prop) WM tr op : (∀ s k k' d, WS s k k' d -> WS' s k k' d) -> ins_guard dig WS WM tr op -> ins_guard (U:=U) (V:=V) dig WS' WM tr op.
Proof.
  intros HW Hg. destruct op; simpl in *; try done. destruct Hg as [Hg|Hg]; [by left|right]. intros s Hs k' Hk'.
  destruct (Hg s Hs k' Hk'). auto.
Qed.
End maps.

Section sets.
Context `{Countable K} {CK U : Type} (u0 : U).
Variables (api : setapi K unit CK U) (dig : N -> K -> nat -> N) (P : K -> Prop) (Q : N -> Prop).
Implicit Types (ok : list (sop K U * sres) -> sop K U -> Prop) (tr : list (sop K U * sres)).

Lemma srun_impl ok ok' : (∀ tr w op, srun api ok' u0 tr w -> ok' tr op -> ok tr op) ->
  ∀ tr w, srun api ok' u0 tr w -> srun api ok u0 tr w.
Proof. intros Himp tr w. induction 1 as [|tr w op res w' Hr IH Ho Hc]; [constructor|econstructor; [exact IH| |exact Hc]]. by eapply Himp. Qed.

Lemma srun_keys ok tr w : (∀ tr op, ok tr op -> sallowed P Q tr op) -> srun api ok u0 tr w ->
  (∀ h k, k ∈ sstored tr h -> P k) /\ ∀ s r, (SNew s, r) ∈ tr -> Q s.
Proof.
  intros Hall. induction 1 as [|tr w op res w' Hr [IH1 IH2] Ho Hc]; [split; set_solver|].
  apply Hall in Ho. split.
  - intros h k Hk. destruct op; simpl in *; try (by eapply IH1); case_match; try (by eapply IH1).
    + apply elem_of_union in Hk as [Hk%elem_of_singleton|Hk]; [subst; tauto|by eapply IH1].
    + apply elem_of_difference in Hk as [Hk _]. by eapply IH1.
  - intros s r [[= <- <-]|Hin]%elem_of_cons; [done|by eapply IH2].
Qed.

Lemma sep_sguard ok W tr w op : (∀ tr op, ok tr op -> sallowed P Q tr op) ->
  separates dig P Q 240 -> ways dig P Q W -> srun api ok u0 tr w -> sallowed P Q tr op ->
  add_guard dig W tr op.
Proof.
  intros Hall Hs HW Hr Ho. destruct (srun_keys ok tr w Hall Hr) as [Hk Hq].
  destruct op; simpl in *; try done; right; intros s Hin; apply (sep_free dig P Q); eauto; try tauto;
    intros k' Hk'%elem_of_elements; by eapply Hk.
Qed.
End sets.

(** The same results under conditions on the keys. *)
Section results.
Context {V U : Type} (zero : V) (fuel : nat) (u0 : U) (Hfuel : 256 <= fuel).

Lemma map_impl_spec `{Countable K} {CK} (api : mapapi K V CK U) dig ok ok' : map_type zero fuel api dig ok ->
  (∀ tr w op, mrun api ok' u0 tr w -> ok' tr op -> ok tr op) ->
  ∀ tr w, mrun api ok' u0 tr w ->
  (∃ σ, mspec dig zero u0 tr σ) /\ ∀ op, ok' tr op -> ∃ res w', mcall api op w = Ret res w'.
Proof.
  intros Ht Himp tr w Hr.
  destruct (map_type_spec zero fuel u0 Hfuel api dig ok Ht tr w (mrun_impl u0 api ok ok' Himp tr w Hr)) as [H1 H2].
  split; [done|]. intros op Ho. apply H2. by eapply Himp.
Qed.
Lemma set_impl_spec `{Countable K} {CK} (api : setapi K unit CK U) dig ok ok' : set_type fuel api dig ok ->
  (∀ tr w op, srun api ok' u0 tr w -> ok' tr op -> ok tr op) ->
  ∀ tr w, srun api ok' u0 tr w ->
  (∃ σ, sspec dig u0 tr σ) /\ ∀ op, ok' tr op -> ∃ res w', scall api op w = Ret res w'.
Proof.
  intros Ht Himp tr w Hr.
  destruct (set_type_spec fuel u0 Hfuel api dig ok Ht tr w (srun_impl u0 api ok ok' Himp tr w Hr)) as [H1 H2].
  split; [done|]. intros op Ho. apply H2. by eapply Himp.
Qed.

Lemma map_sep_spec `{Countable K} {CK} (api : mapapi K V CK U) dig P Q WS WM :
  map_type zero fuel api dig (λ tr op, mallowed P Q tr op /\ ins_guard dig WS WM tr op) ->
  separates dig P Q 240 -> ways dig P Q WS -> ways dig P Q WM ->
  ∀ tr w, mrun api (mallowed P Q) u0 tr w ->
  (∃ σ, mspec dig zero u0 tr σ) /\ ∀ op, mallowed P Q tr op -> ∃ res w', mcall api op w = Ret res w'.
Proof.
  intros Ht Hs HWS HWM. eapply map_impl_spec; [exact Ht|]. intros tr w op Hr Ho. split; [done|].
  eapply sep_guard; eauto.
Qed.
Lemma set_sep_spec `{Countable K} {CK} (api : setapi K unit CK U) dig P Q W :
  set_type fuel api dig (λ tr op, sallowed P Q tr op /\ add_guard dig W tr op) ->
  separates dig P Q 240 -> ways dig P Q W ->
  ∀ tr w, srun api (sallowed P Q) u0 tr w ->
  (∃ σ, sspec dig u0 tr σ) /\ ∀ op, sallowed P Q tr op -> ∃ res w', scall api op w = Ret res w'.
Proof.
  intros Ht Hs HW. eapply set_impl_spec; [exact Ht|]. intros tr w op Hr Ho. split; [done|].
  eapply sep_sguard; eauto.
Qed.
End results.
