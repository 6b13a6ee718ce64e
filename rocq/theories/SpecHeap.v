(** Vocabulary for copies and sharing. *)
From Verif Require Import Base Json SpecJson Heap.

(** The same value with all node ids dropped. *)
Fixpoint drop_ids (j : json) : json :=
  match j with
  | JArray l => JArray (map drop_ids l)
  | JDict _ kvs => JDict 0 (map (fun kv => (fst kv, drop_ids (snd kv))) kvs)
  | _ => j
  end.

(** Address [a] holds the value [j]. *)
Definition holds (h : heap) (a : addr) (j : json) : Prop := exists n, read n h a = Some j.

(** No reference points outside the heap. *)
Definition heap_wf (h : heap) : Prop :=
  forall c x, In c h -> In (Some x) (cell_refs c) -> (x < length h)%nat.
