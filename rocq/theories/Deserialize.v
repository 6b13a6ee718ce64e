(** Model of JSONDeserialize, reflect.go:68-86, and of the registrations in
    reflect.go:54-65.

    gotypes.NewSerializable (not in /repo) calls the constructor registered
    for the type; gotypes.Transform is taken to be the identity, as for types
    without a transformer. *)
From Verif Require Import Base Strconv Json Parser Access Heap Gotypes Unmarshal.

(** What NewSerializable gives for a type: an error, nil, or a pointer to a new
    variable (of this type, at this address of this memory). *)
Inductive made : Type :=
| MadeError
| MadeNil
| MadeVar (m : mem) (t : gty) (a : addr).

(** reflect.go:54-65 *)
Definition made_object : made := MadeNil.
Definition made_dict : made := MadeVar [VJson (Some (JDict 0 []))] (TJsonVal KDict) 0.
Definition made_array : made := MadeVar [VJson (Some (JArray []))] (TJsonVal KArray) 0.

Inductive dres : Type :=
| DJson (j : json)                           (* the parsed object *)
| DVar (m : mem)                             (* the variable, in its memory *)
| DNoType | DParse (e : perr) | DUnmarshal (e : uerr)
| DPanic
| DFuel.

Section Deserialize.
Context (unmarshal : mem -> gty -> addr -> json -> list bytes -> utop).

(** reflect.go:68-86 *)
Definition JSONDeserialize (ty : made) (str : bytes) : dres :=
  match ty with
  | MadeError => DNoType
  | _ =>
      match Parse str with
      | SErr e _ => DParse e
      | SPanic _ => DPanic
      | SFuel => DFuel
      | SOk j _ =>
          match ty with
          | MadeVar m t a =>
              match unmarshal m t a j [] with
              | TopOk m' => DVar m'
              | TopErr _ e => DUnmarshal e
              | TopPanic => DPanic
              | _ => DFuel                      (* TopGet does not occur without keys *)
              end
          | _ => DJson j
          end
      end
  end.
End Deserialize.
