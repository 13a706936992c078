(** The declared key types and their method sets, as far as the constraint of
    the generic types is concerned. *)
From Coq Require Import String List.
Import ListNotations.
Local Open Scope string_scope.

(** The Go types that occur in the signatures of these methods. Int, Bytes and
    String are the types declared at int_map.go:32, bytes_map.go:33 and
    string_map.go:32. *)
Inductive gotype : Type :=
  | TBool | TUint | TUint64 | TSeed
  | TInt | TBytes | TString.

(** A method: its name and its parameter and result types (parameter names do
    not matter to Go). *)
Record gomethod : Type := GoMethod { gm_name : string; gm_params : list gotype; gm_results : list gotype }.

(** Key[K] (generic_map.go:32-38). *)
Definition Key_methods (K : gotype) : list gomethod :=
  [GoMethod "Equal" [K] [TBool]; GoMethod "Hash" [TSeed; TUint] [TUint64]].

(** The methods declared for each type: Int (int_map.go:34), Bytes
    (bytes_map.go:35, 37), String (string_map.go:34, 36). All have value
    receivers. The predeclared types have no methods. *)
Definition methods_of (T : gotype) : list gomethod :=
  match T with
  | TInt => [GoMethod "Hash" [TSeed; TUint] [TUint64]]
  | TBytes => [GoMethod "Equal" [TBytes] [TBool]; GoMethod "Hash" [TSeed; TUint] [TUint64]]
  | TString => [GoMethod "Equal" [TString] [TBool]; GoMethod "Hash" [TSeed; TUint] [TUint64]]
  | _ => []
  end.

(** Go's rule: T implements an interface if it has all of its methods, with
    identical signatures. *)
Definition implements (T : gotype) (iface : list gomethod) : Prop :=
  forall m, In m iface -> In m (methods_of T).

(** Map[K, V] and Set[K] can be instantiated with K only if K implements Key[K]
    (generic_map.go:54, generic_set.go:32). *)
Definition usable_as_key (K : gotype) : Prop := implements K (Key_methods K).
