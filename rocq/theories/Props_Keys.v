(** C36: which of the declared types can be the key type of the generic types. *)
From Coq Require Import String List.
From Verif Require Import GoTypes.
Import ListNotations.
Local Open Scope string_scope.

(** C36, the part that holds: String and Bytes can be used as key types. *)
Theorem C36_String_Bytes_partial : usable_as_key TString /\ usable_as_key TBytes.
Proof. split; intros m [<-|[<-|[]]]; simpl; auto. Qed.

(** C36 fails for Int: it has Hash but no Equal. *)
Theorem C36_refuted : ~ usable_as_key TInt.
Proof.
  intros H. specialize (H (GoMethod "Equal" [TInt] [TBool]) (or_introl eq_refl)).
  simpl in H. destruct H as [H|[]]. discriminate H.
Qed.

(** Equal is all that is missing. *)
Theorem C36_missing_method : forall m, In m (Key_methods TInt) ->
  In m (methods_of TInt) \/ m = GoMethod "Equal" [TInt] [TBool].
Proof. intros m [<-|[<-|[]]]; simpl; auto. Qed.

Print Assumptions C36_String_Bytes_partial.
Print Assumptions C36_refuted.
Print Assumptions C36_missing_method.
