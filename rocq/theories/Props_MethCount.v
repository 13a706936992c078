(** C56: how often, and with which arguments, the calls call the key methods. *)
From stdpp Require Import base numbers list gmap.
From Verif Require Import GoInt Mem Hash Amt Families Spec Client Types Guards Runs Refuted EAmt MethSpec MethCount MethHash MethRuns Props_Types Props_Meth.
Local Open Scope nat_scope.

(** ** The specification *)

(** The container and the key that a call is about, and whether it may insert the key. *)
Definition mabout {K V U} (op : mop K V U) : option (positive * K * bool) :=
  match op with
  | MGet h k | MVal h k | MPtr h k | MDel h k => Some (h, k, false)
  | MSet h k _ | MMod h k _ => Some (h, k, true)
  | _ => None
  end.
Definition sabout {K U} (op : sop K U) : option (positive * K * bool) :=
  match op with
  | SHas h k | SDel h k => Some (h, k, false)
  | SAdd h k => Some (h, k, true)
  | _ => None
  end.

(** The calls of Equal: at most one, key.Equal(other). *)
Definition equals {K} (about : option (positive * K * bool)) (l : list (K * K)) : Prop :=
  l = [] \/ ∃ h k b other, about = Some (h, k, b) /\ l = [(k, other)].
(** Of ==: at most one, other == key. *)
Definition compares {K} (about : option (positive * K * bool)) (l : list (K * K)) : Prop :=
  l = [] \/ ∃ h k b other, about = Some (h, k, b) /\ l = [(other, k)].
(** Of KeyBytes: one for the key, and in Set, Mod and Add perhaps one for another key. *)
Definition asks_bytes {K} (about : option (positive * K * bool)) (l : list K) : Prop :=
  l = [] \/ ∃ h k b, about = Some (h, k, b) /\ (l = [k] \/ b = true /\ ∃ other, l = [k; other]).
(** Of Hash, in a container with seed s: for the key, with iter = 0, 1, 2, ..., 15, 0, 1, ...;
    then, in Set, Mod and Add, perhaps others for this key and one other key. *)
Definition asks_hashes {K} (about : option (positive * K * bool)) (s : N) (l : list (K * N * N)) : Prop :=
  ∃ h k b n l2, about = Some (h, k, b) /\ l = ((λ j, (k, s, N.of_nat (j mod 16))) <$> seq 0 n) ++ l2 /\
    (b = false -> l2 = []) /\ ∃ other, Forall (λ x, x.1.2 = s /\ (x.1.1 = k \/ x.1.1 = other)) l2.

(** ** In every state, whatever the methods return, and whether they panic or not

    log: what the methods note of their calls in their own state. *)
Section maps.
Context (K V U C : Type) (zero : V) (fuel : nat).

Theorem C56_Equal_map : ∀ (Equal : K -> K -> C -> C * option bool) Hash (log : C -> list (K * K)),
  (∀ k k' c, log (Equal k k' c).1 = log c ++ [(k, k')]) -> (∀ k s i c, log (Hash k s i c).1 = log c) ->
  ∀ (op : mop K V U) w, match mcall (EMap_api zero fuel Equal Hash) (emap_op op) w with
    | Ret _ w' | Panic w' => ∃ l, log (w_usr w').2 = log (w_usr w).2 ++ l /\ equals (mabout op) l
    | _ => True
    end.
Proof.
  intros Equal Hash log He Hh op w.
  pose proof (mcall_says log _ _ _ op (gen_says (U:=U) zero fuel log (λ k k', [(k, k')]) Equal Hash He Hh) w) as H.
  destruct (mcall _ _ w); try done; destruct H as (l & Hl & ->); exists l; (split; [done|]);
    destruct op; simpl in Hl |- *; try (by left);
    (destruct Hl as [Hl|[Hl|[ck Hl]]] || destruct Hl as [[Hl|[Hl|[ck Hl]]]|[ck Hl]]); subst; try (by left);
    right; eauto 10.
Qed.

Theorem C56_compare_map : ∀ sum64 (keq : K -> K -> C -> C * option bool) KeyBytes (log : C -> list (K * K)),
  (∀ k k' c, log (keq k k' c).1 = log c ++ [(k, k')]) -> (∀ k c, log (KeyBytes k c).1 = log c) ->
  ∀ (op : mop K V U) w, match mcall (EArrMap_api zero fuel sum64 keq KeyBytes) (emap_op op) w with
    | Ret _ w' | Panic w' => ∃ l, log (w_usr w').2 = log (w_usr w).2 ++ l /\ compares (mabout op) l
    | _ => True
    end.
Proof.
  intros sum64 keq KeyBytes log He Hh op w.
  assert (Hh' : ∀ k c, log (KeyBytes k c).1 = log c ++ []) by (intros; by rewrite Hh, app_nil_r).
  pose proof (mcall_says log _ _ _ op (arr_says (U:=U) zero fuel log (λ k k', [(k, k')]) (λ _, []) sum64 keq KeyBytes He Hh') w) as H.
  destruct (mcall _ _ w); try done; destruct H as (l & Hl & ->); exists l; (split; [done|]);
    destruct op; simpl in Hl |- *; try (by left);
    (destruct Hl as [Hl|[Hl|[ck Hl]]] || destruct Hl as [[Hl|[Hl|[ck Hl]]]|[ck Hl]]); subst; try (by left);
    right; eauto 10.
Qed.

Theorem C56_KeyBytes_map : ∀ sum64 (keq : K -> K -> C -> C * option bool) KeyBytes (log : C -> list K),
  (∀ k k' c, log (keq k k' c).1 = log c) -> (∀ k c, log (KeyBytes k c).1 = log c ++ [k]) ->
  ∀ (op : mop K V U) w, match mcall (EArrMap_api zero fuel sum64 keq KeyBytes) (emap_op op) w with
    | Ret _ w' | Panic w' => ∃ l, log (w_usr w').2 = log (w_usr w).2 ++ l /\ asks_bytes (mabout op) l
    | _ => True
    end.
Proof.
  intros sum64 keq KeyBytes log He Hh op w.
  assert (He' : ∀ k k' c, log (keq k k' c).1 = log c ++ []) by (intros; by rewrite He, app_nil_r).
  pose proof (mcall_says log _ _ _ op (arr_says (U:=U) zero fuel log (λ k k', []) (λ k, [k]) sum64 keq KeyBytes He' Hh) w) as H.
  destruct (mcall _ _ w); try done; destruct H as (l & Hl & ->); exists l; (split; [done|]);
    destruct op; simpl in Hl |- *; try (by left);
    (destruct Hl as [Hl|[Hl|[ck Hl]]] || destruct Hl as [[Hl|[Hl|[ck Hl]]]|[ck Hl]]); subst; try (by left);
    right; eauto 10.
Qed.

(** Calls that are not about a key call no hash. *)
Theorem C56_Hash_keyless_map : ∀ (Equal : K -> K -> C -> C * option bool) Hash (log : C -> list (K * N * N)),
  (∀ k k' c, log (Equal k k' c).1 = log c) -> (∀ k s i c, log (Hash k s i c).1 = log c ++ [(k, s, i)]) ->
  ∀ (op : mop K V U) w, mabout op = None -> match mcall (EMap_api zero fuel Equal Hash) (emap_op op) w with
    | Ret _ w' | Panic w' => log (w_usr w').2 = log (w_usr w).2
    | _ => True
    end.
Proof.
  intros Equal Hash log He Hh op w Ho. pose proof (mcall_hashes zero fuel Equal Hash log He Hh op w) as H.
  destruct (mcall _ _ w); try done; destruct H as (l & -> & Hl); destruct op; try done; simpl in Hl; by rewrite Hl, app_nil_r.
Qed.
End maps.

(** In every execution of C55 (whose container h was made with seed s). *)
Section hash_map.
Context (V U C : Type) (zero : V) (fuel : nat) (u0 : U) (c0 : C).
Context (K : Type) `{Countable K} (Equal : K -> K -> C -> C * option bool) (Hash : K -> N -> N -> C -> C * option N).
Context (bad : Prop) (dig : N -> K -> nat -> N) (ok : list (mop K V U * mres V) -> mop K V U -> Prop).
Local Notation api := (EMap_api (U:=U) zero fuel Equal Hash).
Theorem C56_Hash_map : 256 <= fuel -> emap_type zero fuel api bad dig ok -> ∀ log : C -> list (K * N * N),
  (∀ k k' c, log (Equal k k' c).1 = log c) -> (∀ k s i c, log (Hash k s i c).1 = log c ++ [(k, s, i)]) ->
  ∀ tr w op h k b s, memrun api ok u0 c0 tr w -> mabout op = Some (h, k, b) -> (MNew s, RHandle h) ∈ tr ->
  match mcall api (emap_op op) w with
  | Ret _ w' | Panic w' => ∃ l, log (w_usr w').2 = log (w_usr w).2 ++ l /\ asks_hashes (mabout op) s l
  | _ => True
  end.
Proof.
  intros Hfuel Ht log He Hh tr w op h k b s Hr Ho Hs.
  destruct (proj1 (proj2 (memrun_all zero fuel Hfuel u0 c0 api bad dig ok Ht tr w Hr)) s h Hs) as (rt & Hrt & <-).
  pose proof (mcall_hashes zero fuel Equal Hash log He Hh op w) as H1.
  destruct (mcall api (emap_op op) w); try done; destruct H1 as (l & El & Hl); exists l; (split; [done|]); rewrite Ho;
    exists h, k, b; destruct op; try done; injection Ho as -> -> <-; destruct Hl as (rt' & Hrt' & Hl);
    rewrite Hrt in Hrt'; injection Hrt' as <-;
    ((destruct Hl as [n ->]; exists n, []; split_and!; [done|by rewrite app_nil_r|done|by exists k]) ||
     (destruct Hl as (l1 & l2 & ck & -> & [n ->] & Hl); exists n, l2; split_and!; [done|done|done|by exists ck])).
Qed.
End hash_map.

(** ** The same for sets *)
Section sets.
Context (K U C : Type) (fuel : nat).

Theorem C56_Equal_set : ∀ (Equal : K -> K -> C -> C * option bool) Hash (log : C -> list (K * K)),
  (∀ k k' c, log (Equal k k' c).1 = log c ++ [(k, k')]) -> (∀ k s i c, log (Hash k s i c).1 = log c) ->
  ∀ (op : sop K U) w, match scall (ESet_api fuel Equal Hash) (eset_op op) w with
    | Ret _ w' | Panic w' => ∃ l, log (w_usr w').2 = log (w_usr w).2 ++ l /\ equals (sabout op) l
    | _ => True
    end.
Proof.
  intros Equal Hash log He Hh op w.
  pose proof (scall_says log _ _ _ op (gen_says_set (U:=U) fuel log (λ k k', [(k, k')]) Equal Hash He Hh) w) as H.
  destruct (scall _ _ w); try done; destruct H as (l & Hl & ->); exists l; (split; [done|]);
    destruct op; simpl in Hl |- *; try (by left);
    (destruct Hl as [Hl|[Hl|[ck Hl]]] || destruct Hl as [[Hl|[Hl|[ck Hl]]]|[ck Hl]]); subst; try (by left);
    right; eauto 10.
Qed.

Theorem C56_compare_set : ∀ sum64 (keq : K -> K -> C -> C * option bool) KeyBytes (log : C -> list (K * K)),
  (∀ k k' c, log (keq k k' c).1 = log c ++ [(k, k')]) -> (∀ k c, log (KeyBytes k c).1 = log c) ->
  ∀ (op : sop K U) w, match scall (EArrSet_api fuel sum64 keq KeyBytes) (eset_op op) w with
    | Ret _ w' | Panic w' => ∃ l, log (w_usr w').2 = log (w_usr w).2 ++ l /\ compares (sabout op) l
    | _ => True
    end.
Proof.
  intros sum64 keq KeyBytes log He Hh op w.
  assert (Hh' : ∀ k c, log (KeyBytes k c).1 = log c ++ []) by (intros; by rewrite Hh, app_nil_r).
  pose proof (scall_says log _ _ _ op (arr_says_set (U:=U) fuel log (λ k k', [(k, k')]) (λ _, []) sum64 keq KeyBytes He Hh') w) as H.
  destruct (scall _ _ w); try done; destruct H as (l & Hl & ->); exists l; (split; [done|]);
    destruct op; simpl in Hl |- *; try (by left);
    (destruct Hl as [Hl|[Hl|[ck Hl]]] || destruct Hl as [[Hl|[Hl|[ck Hl]]]|[ck Hl]]); subst; try (by left);
    right; eauto 10.
Qed.

Theorem C56_KeyBytes_set : ∀ sum64 (keq : K -> K -> C -> C * option bool) KeyBytes (log : C -> list K),
  (∀ k k' c, log (keq k k' c).1 = log c) -> (∀ k c, log (KeyBytes k c).1 = log c ++ [k]) ->
  ∀ (op : sop K U) w, match scall (EArrSet_api fuel sum64 keq KeyBytes) (eset_op op) w with
    | Ret _ w' | Panic w' => ∃ l, log (w_usr w').2 = log (w_usr w).2 ++ l /\ asks_bytes (sabout op) l
    | _ => True
    end.
Proof.
  intros sum64 keq KeyBytes log He Hh op w.
  assert (He' : ∀ k k' c, log (keq k k' c).1 = log c ++ []) by (intros; by rewrite He, app_nil_r).
  pose proof (scall_says log _ _ _ op (arr_says_set (U:=U) fuel log (λ k k', []) (λ k, [k]) sum64 keq KeyBytes He' Hh) w) as H.
  destruct (scall _ _ w); try done; destruct H as (l & Hl & ->); exists l; (split; [done|]);
    destruct op; simpl in Hl |- *; try (by left);
    (destruct Hl as [Hl|[Hl|[ck Hl]]] || destruct Hl as [[Hl|[Hl|[ck Hl]]]|[ck Hl]]); subst; try (by left);
    right; eauto 10.
Qed.

Theorem C56_Hash_keyless_set : ∀ (Equal : K -> K -> C -> C * option bool) Hash (log : C -> list (K * N * N)),
  (∀ k k' c, log (Equal k k' c).1 = log c) -> (∀ k s i c, log (Hash k s i c).1 = log c ++ [(k, s, i)]) ->
  ∀ (op : sop K U) w, sabout op = None -> match scall (ESet_api fuel Equal Hash) (eset_op op) w with
    | Ret _ w' | Panic w' => log (w_usr w').2 = log (w_usr w).2
    | _ => True
    end.
Proof.
  intros Equal Hash log He Hh op w Ho. pose proof (scall_hashes fuel Equal Hash log He Hh op w) as H.
  destruct (scall _ _ w); try done; destruct H as (l & -> & Hl); destruct op; try done; simpl in Hl; by rewrite Hl, app_nil_r.
Qed.
End sets.

Section hash_set.
Context (U C : Type) (fuel : nat) (u0 : U) (c0 : C).
Context (K : Type) `{Countable K} (Equal : K -> K -> C -> C * option bool) (Hash : K -> N -> N -> C -> C * option N).
Context (bad : Prop) (dig : N -> K -> nat -> N) (ok : list (sop K U * sres) -> sop K U -> Prop).
Local Notation api := (ESet_api (U:=U) fuel Equal Hash).
Theorem C56_Hash_set : 256 <= fuel -> eset_type fuel api bad dig ok -> ∀ log : C -> list (K * N * N),
  (∀ k k' c, log (Equal k k' c).1 = log c) -> (∀ k s i c, log (Hash k s i c).1 = log c ++ [(k, s, i)]) ->
  ∀ tr w op h k b s, semrun api ok u0 c0 tr w -> sabout op = Some (h, k, b) -> (SNew s, THandle h) ∈ tr ->
  match scall api (eset_op op) w with
  | Ret _ w' | Panic w' => ∃ l, log (w_usr w').2 = log (w_usr w).2 ++ l /\ asks_hashes (sabout op) s l
  | _ => True
  end.
Proof.
  intros Hfuel Ht log He Hh tr w op h k b s Hr Ho Hs.
  destruct (proj1 (proj2 (semrun_all fuel Hfuel u0 c0 api bad dig ok Ht tr w Hr)) s h Hs) as (rt & Hrt & <-).
  pose proof (scall_hashes fuel Equal Hash log He Hh op w) as H1.
  destruct (scall api (eset_op op) w); try done; destruct H1 as (l & El & Hl); exists l; (split; [done|]); rewrite Ho;
    exists h, k, b; destruct op; try done; injection Ho as -> -> <-; destruct Hl as (rt' & Hrt' & Hl);
    rewrite Hrt in Hrt'; injection Hrt' as <-;
    ((destruct Hl as [n ->]; exists n, []; split_and!; [done|by rewrite app_nil_r|done|by exists k]) ||
     (destruct Hl as (l1 & l2 & ck & -> & [n ->] & Hl); exists n, l2; split_and!; [done|done|done|by exists ck])).
Qed.
End hash_set.

(** ** Examples *)

(** Methods that note their calls: two keys (18 and 1) that agree in the first 16 digits. *)
Definition noted {A B} (f : A -> B) (a : A) (c : list A) : list A * option B := (c ++ [a], Some (f a)).
Definition unnoted {B C} (b : B) (c : C) : C * option B := (c, Some b).
Example C56_nonvacuous :
  (∀ n, let api := EMap_api (U:=unit) 0%N (enough n) (λ k k', noted (λ x, N.eqb x.1 x.2) (k, k')) (λ k s i, unnoted (Jhash k s i)) in
    match (h <- New 7 ;; ma_Set api h 1%N 5%N ;;; ma_Set api h 2%N 6%N ;;; ma_Get api h 2%N ;;; ma_Del api h 1%N) (empty_world (tt, [])) with
    | Ret _ w => (w_usr w).2 = [(2, 1); (2, 2); (1, 1)]%N | _ => False end) /\
  (∀ n, let api := EMap_api (U:=unit) 0%N (enough n) (λ k k', unnoted (N.eqb k k')) (λ k s i, noted (λ x, Jhash x.1.1 x.1.2 x.2) (k, s, i)) in
    match (h <- New 7 ;; ma_Set api h 1%N 5%N ;;; ma_Set api h 2%N 6%N ;;; ma_Get api h 2%N) (empty_world (tt, [])) with
    | Ret _ w => (w_usr w).2 = [(1, 7, 0); (2, 7, 0); (1, 7, 0); (2, 7, 1); (1, 7, 1); (2, 7, 0); (2, 7, 1)]%N | _ => False end) /\
  (∀ n, let api := EArrMap_api (U:=unit) 0%N (enough n) toyh (λ k k' : bytes, unnoted (bool_decide (k = k'))) (noted id) in
    match (h <- New 7 ;; ma_Set api h [1]%N 5%N ;;; ma_Set api h [17]%N 6%N ;;; ma_Get api h [17]%N) (empty_world (tt, [])) with
    | Ret _ w => (w_usr w).2 = [[1]; [17]; [1]; [17]]%N | _ => False end).
Proof. split_and!; intros n api; subst api; vm_compute; reflexivity. Qed.

Print Assumptions C56_Equal_map.
Print Assumptions C56_compare_map.
Print Assumptions C56_KeyBytes_map.
Print Assumptions C56_Hash_map.
Print Assumptions C56_Hash_keyless_map.
Print Assumptions C56_Equal_set.
Print Assumptions C56_compare_set.
Print Assumptions C56_KeyBytes_set.
Print Assumptions C56_Hash_set.
Print Assumptions C56_Hash_keyless_set.
