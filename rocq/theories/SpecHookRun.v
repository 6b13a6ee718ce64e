(** Vocabulary for AfterUnmarshal methods during Unmarshal (C53). *)
From Verif Require Import Base Json Heap Gotypes Unmarshal.

(** The number of dicts in a JSON value. *)
Fixpoint ndicts (j : json) : nat :=
  match j with
  | JArray l => (fix sum l := match l with [] => 0 | x :: l' => ndicts x + sum l' end) l
  | JDict _ kvs => S ((fix sum l := match l with [] => 0 | (_, x) :: l' => ndicts x + sum l' end) kvs)
  | _ => 0
  end%nat.

(** Within the structs of a type no field has a deprecated-by tag and no name
    is that of two fields. *)
Fixpoint single_targets (locate : list (finfo * gty) -> bytes -> list nat) (t : gty) : Prop :=
  match t with
  | TSlice t | TArray _ t | TMap t | TMapOther t | TPtr t => single_targets locate t
  | TStruct _ fs => (forall k, (length (locate fs k) <= 1)%nat) /\
      (fix all l := match l with [] => True | (i, t) :: l' => fi_deprecated_by i = None /\ single_targets locate t /\ all l' end) fs
  | _ => True
  end.
