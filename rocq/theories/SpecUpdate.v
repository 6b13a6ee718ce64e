(** Vocabulary for Update. *)
From Verif Require Import Base Strconv Json Heap Gotypes SpecMarshal SpecEncode Printer Marshal Unmarshal SpecUnmarshal SpecRestore SpecFloat SpecFloatText.

(** Following pointers and interfaces from [v] one gets to [x].  Pointers to
    times are excepted: Marshal takes their MarshalJSON (values [GStd]). *)
Inductive arrives (st : store) : gval -> gval -> Prop :=
| ar_here x : arrives st x x
| ar_ptr a v x : nth_error st a = Some v -> (forall o, v <> GTime o) -> arrives st v x -> arrives st (GPtr (Some a)) x
| ar_iface v x : arrives st v x -> arrives st (GIface (Some v)) x.

(** What a variable holds that has the value [x]. *)
Definition cell_of (x : gval) : option vcell :=
  match x with
  | GBool b => Some (VBool b)
  | GInt _ z => Some (VInt z)
  | GFloat _ f => Some (VFloat f)
  | GString s => Some (VString s)
  | GTri (Some b) => Some (VString (if b then txt_true else txt_false))
  | GTime o => Some (VTime o)
  | _ => None
  end.

(** Booleans, numbers, strings, tristates and times. *)
Definition flat (t : gty) : Prop :=
  match t with TBool | TInt _ | TFloat _ | TString | TTri | TTime => True | _ => False end.

(** Fields of distinct names that are neither ignored nor deprecated. *)
Definition plain_source (fs : list (finfo * gval)) : Prop :=
  (forall g v, In (g, v) fs -> fi_ignore g = false /\ fi_deprecated_by g = None) /\
  NoDup (map (fun fv => fi_name (fst fv)) fs).

Section Aligned.
Context (env : nat -> list (finfo * gty)) (locate : list (finfo * gty) -> bytes -> list nat) (parse_time : bytes -> option bytes) (time_json : bytes -> option (option bytes)).
Context (match_us match_eu : bytes -> bool) (to_bool : bytes -> bool).

(** Every field of the source is a nil or leads to a value; the destination has
    no field of that name, or one, of the type of that value. *)
Definition aligned (st : store) (fs : list (finfo * gval)) (ts : list (finfo * gty)) : Prop :=
  (forall g v, In (g, v) fs -> exists x, arrives st v x /\
    (is_nil x \/ locate ts (fi_name g) = [] \/
     exists i g' t, locate ts (fi_name g) = [i] /\ nth_error ts i = Some (g', t) /\ fi_deprecated_by g' = None /\
       flat t /\ restorable locate t /\ holds env parse_time time_json [] x t /\ (fi_force_string g = true -> survives_text match_us match_eu to_bool x))) /\
  (forall g v g' v' i, In (g, v) fs -> In (g', v') fs -> locate ts (fi_name g) = [i] -> locate ts (fi_name g') = [i] -> fi_name g = fi_name g').
End Aligned.
