(** Facts about the programs of Programs.v. *)
From stdpp Require Import base numbers list gmap.
From Verif Require Import GoInt Mem Steps Programs.
Local Open Scope nat_scope.

Section facts.
Context {Op Res V CK U : Type}.
Local Notation world := (world V CK U).
Local Notation M := (M V CK U).
Local Notation trace := (list (Op * Res)).
Local Notation prog := (prog Op Res U).
Implicit Types (w : world) (tr : trace).
Variable call : Op -> M Res.
Variable ok : trace -> Op -> Prop.
Variable changes : trace -> Op -> Prop.
Local Notation exec := (exec call).
Local Notation crun := (crun call ok).
Local Notation fine := (fine call ok changes).
Local Notation loop_fine := (loop_fine call ok changes).

Lemma exec_bindp {A B} (p : prog A) (g : A -> prog B) : ∀ w, exec (bindp p g) w = (a <- exec p ;; exec (g a)) w.
Proof.
  induction p as [a|op c IH|f c IH|]; intros w; cbn [bindp exec]; [done| | |done].
  - rewrite bind_assoc. change (∀ r w, exec (bindp (c r) g) w = (a <- exec (c r) ;; exec (g a)) w) in IH.
    destruct (call op w) as [r w'| | |] eqn:E; [|by unfold bind; rewrite E..].
    rewrite !(bind_Ret _ _ _ _ _ E). apply IH.
  - rewrite bind_assoc, !(bind_Ret get_usr _ w (w_usr w) w eq_refl).
    rewrite bind_assoc, !(bind_Ret (put_usr _) _ w tt (own (f (w_usr w)) w) eq_refl). apply IH.
Qed.

(** Acting on keys one after the other until an action returns false. *)
Fixpoint walk {K} (act : K -> M bool) (ks : list K) : M bool :=
  match ks with
  | [] => ret true
  | k :: ks => go <- act k ;; if go : bool then walk act ks else ret false
  end.
Lemma walk_loop {K} (body : K -> prog bool) ks : ∀ w,
  (_ <- walk (λ k, exec (body k)) ks ;; ret tt) w = exec (loop body ks) w.
Proof.
  induction ks as [|k ks IH]; intros w; [done|]. cbn [walk loop]. rewrite exec_bindp, bind_assoc.
  destruct (exec (body k) w) as [[] w'| | |] eqn:E; [..|by unfold bind; rewrite E|by unfold bind; rewrite E|by unfold bind; rewrite E];
    rewrite !(bind_Ret _ _ _ _ _ E); [apply IH|done].
Qed.

Lemma fine_any {A} (post : trace -> world -> Prop -> A -> Prop) p : ∀ t t' tr w,
  fine post t tr w p -> fine (λ _ _ _ _, True) t' tr w p.
Proof.
  induction p as [a|op c IH|f c IH|]; intros t t' tr w; cbn [fine]; [done| |by apply IH|done].
  intros [Ho Hf]. split; [done|]. intros r w' Hc. eapply IH. by apply Hf.
Qed.
Lemma fine_mono {A} (post post' : trace -> world -> Prop -> A -> Prop) p : (∀ tr w t a, post tr w t a -> post' tr w t a) -> ∀ t tr w,
  fine post t tr w p -> fine post' t tr w p.
Proof.
  intros Hp. induction p as [a|op c IH|f c IH|]; intros t tr w; cbn [fine]; [by apply Hp| |by apply IH|done].
  intros [Ho Hf]. split; [done|]. intros r w' Hc. apply IH. by apply Hf.
Qed.
Lemma fine_post {A} (post : trace -> world -> Prop -> A -> Prop) p : ∀ t tr w a w',
  fine post t tr w p -> exec p w = Ret a w' -> ∃ tr' t', post tr' w' t' a.
Proof.
  induction p as [a|op c IH|f c IH|]; intros t tr w a' w'; cbn [fine exec].
  - intros Hp [= <- <-]. eauto.
  - intros [Ho Hf] He. destruct (call op w) as [r w1| | |] eqn:E; unfold bind in He; rewrite E in He; try done.
    eapply IH; [by apply Hf|exact He].
  - intros Hf He. eapply IH; [exact Hf|]. exact He.
  - done.
Qed.
Lemma fine_bindp {A B} (post : trace -> world -> Prop -> A -> Prop) (post' : trace -> world -> Prop -> B -> Prop) p g : ∀ t tr w,
  fine post t tr w p -> (∀ tr w t a, post tr w t a -> fine post' t tr w (g a)) -> fine post' t tr w (bindp p g).
Proof.
  induction p as [a|op c IH|f c IH|]; intros t tr w Hf Hg; cbn [fine bindp] in *; [by apply Hg| |by apply IH|done].
  destruct Hf as [Ho Hf]. split; [done|]. intros r w' Hc. apply IH; [by apply Hf|done].
Qed.
Lemma loop_fine_any {K} (body : K -> prog bool) ks : ∀ t tr w,
  loop_fine body tr w ks -> fine (λ _ _ _ _, True) t tr w (loop body ks).
Proof.
  induction ks as [|k ks IH]; intros t tr w Hf; cbn [loop_fine loop] in *; [done|].
  apply (fine_any (λ _ _ _ _, True) _ False).
  eapply fine_bindp; [exact Hf|]. intros tr' w' t' go Hgo. destruct go; [|done]. by apply IH, Hgo.
Qed.

Section run.
Variable u0 : U.
Hypothesis Hret : ∀ tr w op, crun u0 tr w -> ok tr op -> ∃ r w', call op w = Ret r w'.
(** P holds in w and survives all calls that do not satisfy changes. *)
Variable P : trace -> world -> Prop.
Hypothesis HPown : ∀ tr w u, P tr w -> P tr (own u w).
Hypothesis HPcall : ∀ tr w op r w', crun u0 tr w -> P tr w -> ok tr op -> ¬ changes tr op -> call op w = Ret r w' -> P ((op, r) :: tr) w'.

(** A program that is fine runs to its end or panics, and its calls are an execution. *)
Lemma exec_fine {A} (post : trace -> world -> Prop -> A -> Prop) p : ∀ t tr w,
  crun u0 tr w -> (¬ t -> P tr w) -> fine post t tr w p ->
  ∃ log w', crun u0 (log ++ tr) w' /\
    ((∃ a t', exec p w = Ret a w' /\ (¬ t' -> P (log ++ tr) w') /\ post (log ++ tr) w' t' a) \/ exec p w = Panic w').
Proof.
  induction p as [a|op c IH|f c IH|]; intros t tr w Hr HP Hf; cbn [fine exec] in *.
  - exists [], w. split; [done|]. left. by exists a, t.
  - destruct Hf as [Ho Hf]. destruct (Hret _ _ _ Hr Ho) as (r & w' & Hc).
    destruct (IH r (t \/ changes tr op) ((op, r) :: tr) w') as (log & w2 & Hr2 & Hx).
    + by econstructor.
    + intros Ht. eapply (HPcall tr w); try done; [apply HP|]; naive_solver.
    + by apply Hf.
    + exists (log ++ [(op, r)]), w2. rewrite <- app_assoc. split; [done|].
      unfold bind. by rewrite Hc.
  - destruct (IH (w_usr w) t tr (own (f (w_usr w)) w)) as (log & w2 & Hr2 & Hx); [by constructor|auto|done|].
    exists log, w2. done.
  - exists [], w. split; [done|]. by right.
Qed.

Definition safe {K} (body : K -> prog bool) (ks : list K) w : Prop :=
  ∃ tr, crun u0 tr w /\ P tr w /\ loop_fine body tr w ks.
Lemma safe_step {K} (body : K -> prog bool) k ks w w' : safe body (k :: ks) w -> exec (body k) w = Ret true w' -> safe body ks w'.
Proof.
  intros (tr & Hr & HP & Hf) He. cbn [loop_fine] in Hf.
  destruct (exec_fine _ _ _ _ _ Hr (λ _, HP) Hf) as (log & w2 & Hr2 & [(a & t & He2 & HP2 & Hpost)|He2]);
    rewrite He in He2; [|done]. injection He2 as <- <-. destruct (Hpost eq_refl) as [Ht Hl].
  exists (log ++ tr). auto.
Qed.
End run.
End facts.
