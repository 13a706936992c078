(** C10, C11, C12: what exactly goes wrong where the claims fail, for all executions. *)
From stdpp Require Import base numbers list gmap.
From Verif Require Import GoInt Mem Hash Amt Families Spec Client Types Guards Observe Runs Refuted Instances Pack Refine RefineSet MovedSpec Misplaced Props_Types Props_Lost.
Local Open Scope nat_scope.

(** The executions are those of [C10_C11_Map_is_finite_map_partial]: up to now
    every key went in as it should. Now k arrives and the stored key k' is in its
    way ([in_way] in Spec.v), at depth d. Set moves k' down with the digits
    [moved] (MovedSpec.v), to the level j where they depart from those of k.

    Then: Set returns, k is stored with its value, Len grows by one, Get of every
    other key but k' gives what it gave before, and Get of k' does not find k'
    any more as soon as one of the digits d + 1 .. j that were used for it is
    wrong. If none of them is, Get of k' gives what it gave before. *)
Theorem C10_Set_misplaces : ∀ (K : Type) `{Countable K} (V U : Type) (zero : V) (u0 : U) (fuel : nat)
    (Equal : K -> K -> bool) (Hash : K -> N -> N -> N) (P : K -> Prop) (Q : N -> Prop)
    (tr : list (mop K V U * mres V)) w s h k k' j v,
  256 <= fuel -> decides_eq Equal P ->
  mrun (Map_api zero fuel Equal Hash)
    (λ tr op, mallowed P Q tr op /\ ins_guard (gdigit Hash) (set_way Hash) (mod_way Hash) tr op) u0 tr w ->
  (MNew s, RHandle h) ∈ tr -> P k -> in_way (gdigit Hash) s (elements (stored tr h)) k k' ->
  let d := depth (gdigit Hash) s (elements (stored tr h)) k' in
  let Get := Map_Get zero fuel Equal Hash (Some h) in
  d < j <= 240 -> (∀ i, d < i < j -> gdigit Hash s k i = moved Hash s k' k' d i) ->
  gdigit Hash s k j ≠ moved Hash s k' k' d j ->
  (∃ v', Get k' w = Ret (v', true) w) /\
  ∃ w', Map_Set fuel Equal Hash (Some h) k v w = Ret tt w' /\
    (∃ n, Len (Some h) w = Ret n w /\ Len (Some h) w' = Ret (u64 (n + 1)) w') /\
    Get k w' = Ret (v, true) w' /\
    ((∃ i, d < i <= j /\ moved Hash s k' k' d i ≠ gdigit Hash s k' i) -> Get k' w' = Ret (zero, false) w') /\
    ((∀ i, d < i <= j -> moved Hash s k' k' d i = gdigit Hash s k' i) -> ∃ r, Get k' w = Ret r w /\ Get k' w' = Ret r w') /\
    ∀ x, P x -> x ≠ k -> x ≠ k' -> ∃ r, Get x w = Ret r w /\ Get x w' = Ret r w'.
Proof.
  intros K ? ? V U zero u0 fuel Equal Hash P Q tr w s h k k' j v Hf He Hr Hin Hk Hway d Get Hj Hag Hdiff.
  destruct (map_misplaced Equal Hash P Q He fuel Hf zero u0 tr w s h k k' j (gen_fam Equal Hash) k' (set_op (gen_fam Equal Hash) k v) v (w_usr w)
    Hr Hin Hk Hway Hj Hag Hdiff) as (Hk' & Hb & w' & Hrun & _ & Hl & Hg & Hbad & Hx).
  { by left. }
  { done. }
  { intros w1 _ <-. apply (Refine.cellnew_run (kv_layout P) v k w1). }
  split; [exact Hb|]. exists w'. split_and!; [exact Hrun|exact Hl|exact Hg|exact Hbad| |].
  - intros Hright. apply Hx; [done| |done]. by destruct Hway as (_ & ? & _).
  - intros x Hpx H1 H2. by apply Hx.
Qed.

(** The same for Mod, which uses the hash of k instead of the one of k'. Here
    the value is the one that the callback leaves for a new key, and [w_usr] is
    what the callback leaves of the caller's own state. *)
Theorem C11_Mod_misplaces : ∀ (K : Type) `{Countable K} (V U : Type) (zero : V) (u0 : U) (fuel : nat)
    (Equal : K -> K -> bool) (Hash : K -> N -> N -> N) (P : K -> Prop) (Q : N -> Prop)
    (tr : list (mop K V U * mres V)) w s h k k' j f,
  256 <= fuel -> decides_eq Equal P ->
  mrun (Map_api zero fuel Equal Hash)
    (λ tr op, mallowed P Q tr op /\ ins_guard (gdigit Hash) (set_way Hash) (mod_way Hash) tr op) u0 tr w ->
  (MNew s, RHandle h) ∈ tr -> P k -> in_way (gdigit Hash) s (elements (stored tr h)) k k' ->
  let d := depth (gdigit Hash) s (elements (stored tr h)) k' in
  let Get := Map_Get zero fuel Equal Hash (Some h) in
  d < j <= 240 -> (∀ i, d < i < j -> gdigit Hash s k i = moved Hash s k k' d i) ->
  gdigit Hash s k j ≠ moved Hash s k k' d j ->
  (∃ v', Get k' w = Ret (v', true) w) /\
  ∃ w', Map_Mod zero fuel Equal Hash (Some h) k (mod_cb f) w = Ret tt w' /\ w_usr w' = (f (w_usr w) zero false).1 /\
    (∃ n, Len (Some h) w = Ret n w /\ Len (Some h) w' = Ret (u64 (n + 1)) w') /\
    Get k w' = Ret ((f (w_usr w) zero false).2, true) w' /\
    ((∃ i, d < i <= j /\ moved Hash s k k' d i ≠ gdigit Hash s k' i) -> Get k' w' = Ret (zero, false) w') /\
    ((∀ i, d < i <= j -> moved Hash s k k' d i = gdigit Hash s k' i) -> ∃ r, Get k' w = Ret r w /\ Get k' w' = Ret r w') /\
    ∀ x, P x -> x ≠ k -> x ≠ k' -> ∃ r, Get x w = Ret r w /\ Get x w' = Ret r w'.
Proof.
  intros K ? ? V U zero u0 fuel Equal Hash P Q tr w s h k k' j f Hf He Hr Hin Hk Hway d Get Hj Hag Hdiff.
  destruct (map_misplaced Equal Hash P Q He fuel Hf zero u0 tr w s h k k' j (gen_mod_fam Equal Hash) k
    (mod_op (gen_mod_fam Equal Hash) zero k (mod_cb f)) (f (w_usr w) zero false).2 (f (w_usr w) zero false).1
    Hr Hin Hk Hway Hj Hag Hdiff) as (Hk' & Hb & w' & Hrun & Hu & Hl & Hg & Hbad & Hx).
  { by right. }
  { done. }
  { intros w1 Hok1 <-. apply (Refine.modnew_run (kv_layout P) zero f k w1 Hok1). }
  split; [exact Hb|]. exists w'. split_and!; [exact Hrun|exact Hu|exact Hl|exact Hg|exact Hbad| |].
  - intros Hright. apply Hx; [done| |done]. by destruct Hway as (_ & ? & _).
  - intros x Hpx H1 H2. by apply Hx.
Qed.

Theorem C12_Add_misplaces : ∀ (K : Type) `{Countable K} (U : Type) (u0 : U) (fuel : nat)
    (Equal : K -> K -> bool) (Hash : K -> N -> N -> N) (P : K -> Prop) (Q : N -> Prop)
    (tr : list (sop K U * sres)) w s h k k' j,
  256 <= fuel -> decides_eq Equal P ->
  srun (Set_api fuel Equal Hash)
    (λ tr op, sallowed P Q tr op /\ add_guard (gdigit Hash) (set_way Hash) tr op) u0 tr w ->
  (SNew s, THandle h) ∈ tr -> P k -> in_way (gdigit Hash) s (elements (sstored tr h)) k k' ->
  let d := depth (gdigit Hash) s (elements (sstored tr h)) k' in
  let Has := Set_Has fuel Equal Hash (Some h) in
  d < j <= 240 -> (∀ i, d < i < j -> gdigit Hash s k i = moved Hash s k' k' d i) ->
  gdigit Hash s k j ≠ moved Hash s k' k' d j ->
  Has k' w = Ret true w /\
  ∃ w', Set_Add fuel Equal Hash (Some h) k w = Ret tt w' /\
    (∃ n, Len (Some h) w = Ret n w /\ Len (Some h) w' = Ret (u64 (n + 1)) w') /\
    Has k w' = Ret true w' /\
    ((∃ i, d < i <= j /\ moved Hash s k' k' d i ≠ gdigit Hash s k' i) -> Has k' w' = Ret false w') /\
    ((∀ i, d < i <= j -> moved Hash s k' k' d i = gdigit Hash s k' i) -> Has k' w' = Ret true w') /\
    ∀ x, P x -> x ≠ k -> x ≠ k' -> ∃ b, Has x w = Ret b w /\ Has x w' = Ret b w'.
Proof.
  intros K ? ? U u0 fuel Equal Hash P Q tr w s h k k' j Hf He Hr Hin Hk Hway d Has Hj Hag Hdiff.
  destruct (set_misplaced Equal Hash P Q He fuel Hf u0 tr w s h k k' j Hr Hin Hk Hway Hj Hag Hdiff)
    as (Hk' & Hb & w' & Hrun & _ & Hl & Hg & Hbad & Hx).
  split; [exact Hb|]. exists w'. split_and!; [exact Hrun|exact Hl|exact Hg|exact Hbad| |].
  - intros Hright. destruct (Hx k' Hk') as (b & H1 & H2); [by destruct Hway as (_ & ? & _)|done|].
    unfold Has in *. rewrite Hb in H1. injection H1 as <-. exact H2.
  - intros x Hpx H1 H2. by apply Hx.
Qed.

(** ** The hypotheses are met *)
Lemma between_dec (f g : nat -> N) d j : forallb (λ i, bool_decide (f i = g i)) (seq (S d) (j - S d)) = true ->
  ∀ i, d < i < j -> f i = g i.
Proof.
  intros Hb i Hi. rewrite forallb_forall in Hb. specialize (Hb i). rewrite in_seq in Hb.
  eapply bool_decide_eq_true, Hb. lia.
Qed.

(** With the Hash of [Map_Set_refuted]: 0x10 is at depth 1, where Set(0x110) takes
    0x1F7, its hash for iter = 1, for its hash for iter = 0. *)
Example C10_misplaces_nonvacuous : decides_eq N.eqb (λ _, true = true) /\ ∃ tr w,
  mrun (Map_api 0%N 256 N.eqb num_hash) (λ tr op, mallowed (λ _, true = true) (λ _, true = true) tr op /\
    ins_guard (gdigit num_hash) (set_way num_hash) (mod_way num_hash) tr op) 0%N tr w /\
  (MNew 0, RHandle 2) ∈ tr /\ in_way (gdigit num_hash) 0 (elements (stored tr 2)) 272%N 16%N /\
  let d := depth (gdigit num_hash) 0 (elements (stored tr 2)) 16%N in
  d < 18 /\ (∀ i, d < i < 18 -> gdigit num_hash 0 272%N i = moved num_hash 0 16%N 16%N d i) /\
  gdigit num_hash 0 272%N 18 ≠ moved num_hash 0 16%N 16%N d 18 /\
  ∃ i, d < i <= 18 /\ moved num_hash 0 16%N 16%N d i ≠ gdigit num_hash 0 16%N i.
Proof.
  split. { intros k k' _ _. apply N.eqb_eq. }
  destruct (mexec_res (Map_api 0%N 256 N.eqb num_hash) (gchk (gdigit num_hash) (λ _, true) (set_wayb num_hash) (mod_wayb num_hash))
    (λ tr op, mallowed (λ _, true = true) (λ _, true = true) tr op /\
      ins_guard (gdigit num_hash) (set_way num_hash) (mod_way num_hash) tr op) 0%N
    [MNew 0; MSet 2 0%N 7%N; MSet 2 16%N 8%N] [RHandle 2; RUnit; RUnit]) as (tr & w & Hr & E).
  { intros tr op. apply gchk_ok; [apply set_wayb_ok|apply mod_wayb_ok]. }
  { vm_compute. reflexivity. }
  apply rev_eq in E. exists tr, w. split; [done|]. subst tr.
  split; [cbn; set_solver +|]. split; [apply in_way_dec; vm_compute; reflexivity|]. cbv zeta.
  match goal with |- context [depth ?a ?b ?c ?e] => assert (depth a b c e = 1) as -> by (vm_compute; reflexivity) end.
  split; [lia|]. split; [apply between_dec; vm_compute; reflexivity|]. split; [vm_compute; done|].
  exists 2. split; [lia|vm_compute; done].
Qed.

(** Mod(16) with 0 in the way moves 0 down with the digits of 16. *)
Example C11_misplaces_nonvacuous : ∃ tr w,
  mrun (Map_api 0%N 256 N.eqb num_hash) (λ tr op, mallowed (λ _, true = true) (λ _, true = true) tr op /\
    ins_guard (gdigit num_hash) (set_way num_hash) (mod_way num_hash) tr op) 0%N tr w /\
  (MNew 0, RHandle 2) ∈ tr /\ in_way (gdigit num_hash) 0 (elements (stored tr 2)) 16%N 0%N /\
  let d := depth (gdigit num_hash) 0 (elements (stored tr 2)) 0%N in
  d < 17 /\ (∀ i, d < i < 17 -> gdigit num_hash 0 16%N i = moved num_hash 0 16%N 0%N d i) /\
  gdigit num_hash 0 16%N 17 ≠ moved num_hash 0 16%N 0%N d 17 /\
  ∃ i, d < i <= 17 /\ moved num_hash 0 16%N 0%N d i ≠ gdigit num_hash 0 0%N i.
Proof.
  destruct (mexec_res (Map_api 0%N 256 N.eqb num_hash) (gchk (gdigit num_hash) (λ _, true) (set_wayb num_hash) (mod_wayb num_hash))
    (λ tr op, mallowed (λ _, true = true) (λ _, true = true) tr op /\
      ins_guard (gdigit num_hash) (set_way num_hash) (mod_way num_hash) tr op) 0%N
    [MNew 0; MSet 2 0%N 7%N] [RHandle 2; RUnit]) as (tr & w & Hr & E).
  { intros tr op. apply gchk_ok; [apply set_wayb_ok|apply mod_wayb_ok]. }
  { vm_compute. reflexivity. }
  apply rev_eq in E. exists tr, w. split; [done|]. subst tr.
  split; [cbn; set_solver +|]. split; [apply in_way_dec; vm_compute; reflexivity|]. cbv zeta.
  match goal with |- context [depth ?a ?b ?c ?e] => assert (depth a b c e = 0) as -> by (vm_compute; reflexivity) end.
  split; [lia|]. split; [apply between_dec; vm_compute; reflexivity|]. split; [vm_compute; done|].
  exists 1. split; [lia|vm_compute; done].
Qed.

Example C12_misplaces_nonvacuous : ∃ tr w,
  srun (Set_api 256 N.eqb num_hash) (λ tr op, sallowed (λ _, true = true) (λ _, true = true) tr op /\
    add_guard (gdigit num_hash) (set_way num_hash) tr op) ([] : list N) tr w /\
  (SNew 0, THandle 2) ∈ tr /\ in_way (gdigit num_hash) 0 (elements (sstored tr 2)) 272%N 16%N /\
  let d := depth (gdigit num_hash) 0 (elements (sstored tr 2)) 16%N in
  d < 18 /\ (∀ i, d < i < 18 -> gdigit num_hash 0 272%N i = moved num_hash 0 16%N 16%N d i) /\
  gdigit num_hash 0 272%N 18 ≠ moved num_hash 0 16%N 16%N d 18 /\
  ∃ i, d < i <= 18 /\ moved num_hash 0 16%N 16%N d i ≠ gdigit num_hash 0 16%N i.
Proof.
  destruct (sexec_res (Set_api 256 N.eqb num_hash) (gschk (gdigit num_hash) (λ _, true) (set_wayb num_hash))
    (λ tr op, sallowed (λ _, true = true) (λ _, true = true) tr op /\
      add_guard (gdigit num_hash) (set_way num_hash) tr op) ([] : list N)
    [SNew 0; SAdd 2 0%N; SAdd 2 16%N] [THandle 2; TUnit; TUnit]) as (tr & w & Hr & E).
  { intros tr op. apply gschk_ok. apply set_wayb_ok. }
  { vm_compute. reflexivity. }
  apply rev_eq in E. exists tr, w. split; [done|]. subst tr.
  split; [cbn; set_solver +|]. split; [apply in_way_dec; vm_compute; reflexivity|]. cbv zeta.
  match goal with |- context [depth ?a ?b ?c ?e] => assert (depth a b c e = 1) as -> by (vm_compute; reflexivity) end.
  split; [lia|]. split; [apply between_dec; vm_compute; reflexivity|]. split; [vm_compute; done|].
  exists 2. split; [lia|vm_compute; done].
Qed.

Print Assumptions C10_Set_misplaces.
Print Assumptions C11_Mod_misplaces.
Print Assumptions C12_Add_misplaces.
