(** Vocabulary for concurrent readers. *)
From Verif Require Import Base Strconv Json Heap Concur.

(** The goroutine has returned, or it has panicked. *)
Definition over {A} (t : thread A) : Prop := (exists x, t = Run (Done x)) \/ t = Panic.

(** How often goroutine [i] has its turn *)
Definition turns (i : nat) (sched : list nat) : nat := count_occ Nat.eq_dec sched i.

(** The goroutine is about to write the width of the float at [a]; about to
    read it. *)
Definition writes_width {A} (t : thread A) (a : addr) : Prop := exists k, t = SetBit a k.
Definition reads_width {A} (t : thread A) (a : addr) : Prop :=
  (exists k, t = Run (Text a k)) \/ (exists k, t = Test64 a k) \/ (exists k, t = Format a k).

(** All floats have a width, as those of NewFloat and Marshal. *)
Definition wide (h : heap) : Prop := forall a f b, nth_error h a = Some (CFloat f b) -> b = 32 \/ b = 64.

(** The same objects, but for the width of floats without one. *)
Definition same_objects (h h' : heap) : Prop :=
  length h' = length h /\ forall a c, nth_error h a = Some c ->
    nth_error h' a = Some c \/ exists f b, c = CFloat f b /\ b <> 32 /\ b <> 64 /\ nth_error h' a = Some (CFloat f 64).

(** The value with 64 as the width of floats without one. *)
Fixpoint with_widths (j : json) : json :=
  match j with
  | JFloat f b => JFloat f (if b =? 32 then 32 else 64)
  | JArray l => JArray (map with_widths l)
  | JDict nid kvs => JDict nid (map (fun kv => (fst kv, with_widths (snd kv))) kvs)
  | _ => j
  end.
