(** Model of goroutines that read shared JSON values: string.go:35-40 step by
    step, everything else that reads.

    The only method that reads and also writes is JSONFloat.String, which sets
    the width of a float that has none (the parser makes such).  The other
    reading methods only look at objects; a client is any program that looks at
    objects and asks floats for their text.  Memory is sequentially consistent;
    a Look sees one object at once, which makes no difference because nothing
    but the width of floats is ever written. *)
From Verif Require Import Base Strconv SortedMap Json Printer Heap.

(** What a client sees of an object other than through String: all fields but
    the private field bit. *)
Inductive seen : Type :=
| SNull | SBool (b : bool) | SInt (z : Z) | SFloat (f : fl) | SString (s : bytes)
| SArray (rs : list ref) | SDict (nid : Z) (kvs : smap ref) | SPtr (nid : Z).
Definition look (c : cell) : seen :=
  match c with
  | CNull => SNull | CBool b => SBool b | CInt z => SInt z | CFloat f _ => SFloat f | CString s => SString s
  | CArray rs => SArray rs | CDict nid kvs => SDict nid kvs | CPtr nid => SPtr nid
  end.

(** A client: it looks at the object at an address (nil if there is none), or
    calls String of the float at an address, and goes on. *)
Inductive prog (A : Type) : Type :=
| Done (x : A)
| Look (a : addr) (k : option seen -> prog A)
| Text (a : addr) (k : bytes -> prog A).
Arguments Done {A} x.
Arguments Look {A} a k.
Arguments Text {A} a k.

(** A goroutine: running the client, or inside JSONFloat.String of the float at
    [a] ([k]: what the client does with the text). *)
Inductive thread (A : Type) : Type :=
| Run (p : prog A)
| Test64 (a : addr) (k : bytes -> prog A)      (* string.go:36, second condition *)
| SetBit (a : addr) (k : bytes -> prog A)      (* string.go:37 *)
| Format (a : addr) (k : bytes -> prog A)      (* string.go:39 *)
| Panic.
Arguments Run {A} p.
Arguments Test64 {A} a k.
Arguments SetBit {A} a k.
Arguments Format {A} a k.
Arguments Panic {A}.

Definition bit_at (h : heap) (a : addr) : option Z :=
  match nth_error h a with Some (CFloat _ b) => Some b | _ => None end.
Definition set_bit (h : heap) (a : addr) (b : Z) : heap :=
  match nth_error h a with Some (CFloat f _) => hwrite h a (CFloat f b) | _ => h end.

(** One step of a goroutine: one access to memory.  FormatFloat panics if the
    width is neither 32 nor 64. *)
Definition tstep {A} (h : heap) (t : thread A) : heap * thread A :=
  match t with
  | Run (Done x) => (h, t)
  | Run (Look a k) => (h, Run (k (option_map look (nth_error h a))))
  | Run (Text a k) => match bit_at h a with
                      | Some b => (h, if b =? 32 then Format a k else Test64 a k)
                      | None => (h, Panic)
                      end
  | Test64 a k => match bit_at h a with
                  | Some b => (h, if b =? 64 then Format a k else SetBit a k)
                  | None => (h, Panic)
                  end
  | SetBit a k => (set_bit h a 64, Format a k)
  | Format a k => match nth_error h a with
                  | Some (CFloat f b) =>
                      if b =? 32 then (h, Run (k (format_float F32 (to_f32 f))))
                      else if b =? 64 then (h, Run (k (format_float F64 f)))
                      else (h, Panic)
                  | _ => (h, Panic)
                  end
  | Panic => (h, Panic)
  end.

Fixpoint set_thread {A} (ts : list (thread A)) (i : nat) (t : thread A) : list (thread A) :=
  match ts, i with
  | [], _ => []
  | _ :: ts', O => t :: ts'
  | x :: ts', S i' => x :: set_thread ts' i' t
  end.

(** A schedule says whose turn it is, step by step. *)
Fixpoint run {A} (sched : list nat) (h : heap) (ts : list (thread A)) : heap * list (thread A) :=
  match sched with
  | [] => (h, ts)
  | i :: sched' =>
      match nth_error ts i with
      | None => run sched' h ts
      | Some t => let '(h', t') := tstep h t in run sched' h' (set_thread ts i t')
      end
  end.

(** buildString of the object at [a], write.go:28-81, as a client; [None]: nil
    or dangling inside, or deeper than [fuel]. *)
Fixpoint str_prog {A} (fuel : nat) (a : addr) (k : option bytes -> prog A) {struct fuel} : prog A :=
  match fuel with
  | O => k None
  | S n =>
      Look a (fun c =>
        match c with
        | None => k None
        | Some SNull => k (Some txt_null)
        | Some (SBool b) => k (Some (if b then txt_true else txt_false))
        | Some (SInt z) => k (Some (format_int z))
        | Some (SFloat _) => Text a (fun s => k (Some s))
        | Some (SString s) => k (Some (quote_string s))
        | Some (SPtr n) => k (Some (ptr_string n))
        | Some (SArray rs) =>
            (fix go (idx : nat) (acc : bytes) (rs : list ref) : prog A :=
               match rs with
               | [] => k (Some (acc ++ ["]"%byte]))
               | None :: _ => k None
               | Some x :: rs' =>
                   str_prog n x (fun r => match r with
                                          | None => k None
                                          | Some s => go (S idx) (acc ++ (if Nat.ltb 0 idx then [","%byte] else []) ++ s) rs'
                                          end)
               end) 0%nat ["["%byte] rs
        | Some (SDict nid kvs) =>
            (fix go (idx : nat) (acc : bytes) (kvs : list (bytes * ref)) : prog A :=
               match kvs with
               | [] => k (Some (acc ++ ["}"%byte]))
               | (_, None) :: _ => k None
               | (key, Some x) :: kvs' =>
                   str_prog n x (fun r => match r with
                                          | None => k None
                                          | Some s => go (S idx) (acc ++ (if Nat.ltb 0 idx then [","%byte] else []) ++ quote_string key ++ [":"%byte] ++ s) kvs'
                                          end)
               end) (if 0 <? nid then 1%nat else 0%nat)
                    (["{"%byte] ++ (if 0 <? nid then quote_string jnid_key ++ [":"%byte] ++ format_int nid else [])) kvs
        end)
  end.

(** goroutine: doc.String() *)
Definition go_string (fuel : nat) (a : addr) : thread (option bytes) := Run (str_prog fuel a Done).
