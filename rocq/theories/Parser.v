(** Model of the parser: jsonutils.go:107-296, 424-569, 616-716 and
    parse_session.go.

    The Go code passes the whole input and an offset i; the model passes the
    remaining suffix s, so i = length input - length s.  Every error carries
    the suffix at the offset it reports.  A Go run-time panic is the outcome
    [PPanic].  [PFuel] (recursion fuel exhausted) is proved unreachable in
    ParserFacts.v.  The parse session is reduced to its observable part: the
    list of node ids that already have a node (saveReferer only stores
    pointers that nothing reads back). *)
From Verif Require Import Base Strconv SortedMap Utf8 Json.

Inductive perr : Set :=
| EIncompleteUnicode | EBadUnicode | EIncompleteHex | EBadHex | EIncompleteEscape
| EBadNodeId | ETruncated | EColonNotFound | EUnexpectedChar | EEmptyString.

Inductive ppanic : Set :=
| PIndexOutOfRange   (* val[0] of an empty token, jsonutils.go:262 *)
| PTypeAssertion     (* val.( *JSONInt), jsonutils.go:479 *)
| PDuplicateNode.    (* parse_session.go:49 *)

Inductive pres (A : Type) : Type :=
| POk (a : A) (rest : bytes)
| PErr (e : perr) (rest : bytes)
| PPanic (p : ppanic)
| PFuel.
Arguments POk {A}. Arguments PErr {A}. Arguments PPanic {A}. Arguments PFuel {A}.

(** skipEmpty, jsonutils.go:107-118 *)
Definition is_ws (c : byte) : bool :=
  beq c " "%byte || beq c x09 || beq c x0a || beq c x0d.

Fixpoint skip_empty (s : bytes) : bytes :=
  match s with
  | [] => []
  | c :: s' => if is_ws c then skip_empty s' else s
  end.

(** hexchar2num, jsonutils.go:120-131 *)
Definition hexchar2num (c : byte) : option Z :=
  if (48 <=? bz c) && (bz c <=? 57) then Some (bz c - 48)
  else if (97 <=? bz c) && (bz c <=? 102) then Some (bz c - 97 + 10)
  else if (65 <=? bz c) && (bz c <=? 70) then Some (bz c - 65 + 10)
  else None.

(** hexstr2byte, jsonutils.go:133-146 (byte arithmetic wraps at 256) *)
Definition hexstr2byte (a b : byte) : option Z :=
  match hexchar2num a with
  | None => None
  | Some v1 => match hexchar2num b with
               | None => None
               | Some v2 => Some ((v1 * 16 + v2) mod 256)
               end
  end.

(** hexstr2rune, jsonutils.go:148-161 *)
Definition hexstr2rune (a b c d : byte) : option Z :=
  match hexstr2byte a b with
  | None => None
  | Some v1 => match hexstr2byte c d with
               | None => None
               | Some v2 => Some (v1 * 256 + v2)
               end
  end.

(** parseQuoteString, jsonutils.go:163-234; [acc] is the buffer, reversed. *)
Fixpoint parse_quoted (q : byte) (acc : bytes) (s : bytes) : pres bytes :=
  match s with
  | [] => POk (rev acc) []                     (* loop ends without the quote: accepted *)
  | c :: s1 =>
      if beq c "\"%byte then
        match s1 with
        | [] => PErr EIncompleteEscape s       (* i still at the backslash *)
        | e :: s2 =>
            if beq e "u"%byte then
              match s2 with
              | h1 :: h2 :: h3 :: h4 :: s3 =>
                  match s3 with
                  | [] => PErr EIncompleteUnicode s2      (* i+4 >= len *)
                  | _ :: _ =>
                      match hexstr2rune h1 h2 h3 h4 with
                      | None => PErr EBadUnicode s2
                      | Some r => parse_quoted q (rev (encode_rune r) ++ acc) s3
                      end
                  end
              | _ => PErr EIncompleteUnicode s2
              end
            else if beq e "x"%byte then
              match s2 with
              | h1 :: h2 :: s3 =>
                  match s3 with
                  | [] => PErr EIncompleteHex s2          (* i+2 >= len *)
                  | _ :: _ =>
                      match hexstr2byte h1 h2 with
                      | None => PErr EBadHex s2
                      | Some r => parse_quoted q (zb r :: acc) s3
                      end
                  end
              | _ => PErr EIncompleteHex s2
              end
            else if beq e "n"%byte then parse_quoted q (x0a :: acc) s2
            else if beq e "r"%byte then parse_quoted q (x0d :: acc) s2
            else if beq e "t"%byte then parse_quoted q (x09 :: acc) s2
            else if beq e "b"%byte then parse_quoted q (x08 :: acc) s2
            else if beq e "f"%byte then parse_quoted q (x0c :: acc) s2
            else if beq e "\"%byte then parse_quoted q ("\"%byte :: acc) s2
            else parse_quoted q (e :: acc) s2
        end
      else if beq c q then POk (rev acc) s1
      else parse_quoted q (c :: acc) s1
  end.

(** The token delimiters of parseString, jsonutils.go:247 *)
Definition is_delim (c : byte) : bool :=
  beq c " "%byte || beq c ":"%byte || beq c ","%byte || beq c x09 || beq c x0d
  || beq c x0a || beq c "}"%byte || beq c "]"%byte.

(** The bare-token loop, jsonutils.go:244-253 *)
Fixpoint bare_token (s : bytes) : bytes * bytes :=
  match s with
  | [] => ([], [])
  | c :: s' => if is_delim c then ([], s)
               else let '(t, r) := bare_token s' in (c :: t, r)
  end.

(** parseString, jsonutils.go:236-254: token and whether it was quoted.
    Callers guarantee that s is not empty. *)
Definition parse_string (s : bytes) : pres (bytes * bool) :=
  match s with
  | [] => PPanic PIndexOutOfRange
  | c :: s' =>
      if beq c """"%byte || beq c "'"%byte then
        match parse_quoted c [] s' with
        | POk t r => POk (t, true) r
        | PErr e r => PErr e r
        | PPanic p => PPanic p
        | PFuel => PFuel
        end
      else let '(t, r) := bare_token s in POk (t, false) r
  end.

Definition kw_null := Eval vm_compute in B "null".
Definition kw_none := Eval vm_compute in B "none".
Definition kw_true := Eval vm_compute in B "true".
Definition kw_yes := Eval vm_compute in B "yes".
Definition kw_false := Eval vm_compute in B "false".
Definition kw_no := Eval vm_compute in B "no".

(** The bare-token part of parseJSONValue, jsonutils.go:262-295.  [None] is
    the "invalid node id" error.  strings.ToLower is compared with ASCII
    words only, for which ASCII lower-casing gives the same answer. *)
Definition bare_value (t : bytes) : option json :=
  if beq (hd x00 t) "<"%byte && beq (last t x00) ">"%byte then
    match parse_int (removelast (tl t)) with
    | None => None
    | Some n => Some (JPtr n)
    end
  else
    let l := lowers t in
    if bseq l kw_null || bseq l kw_none then Some JNull
    else if bseq l kw_true || bseq l kw_yes then Some (JBool true)
    else if bseq l kw_false || bseq l kw_no then Some (JBool false)
    else match parse_int t with
         | Some z => Some (JInt z)
         | None => match parse_float F64 t with
                   | Some f => Some (JFloat f 0)
                   | None => Some (JString t)
                   end
         end.

(** parseJSONValue, jsonutils.go:256-296 *)
Definition parse_scalar (s : bytes) : pres json :=
  match parse_string s with
  | POk (t, true) r => POk (JString t) r
  | POk ([], false) r => PPanic PIndexOutOfRange
  | POk (t, false) r => match bare_value t with
                        | Some v => POk v r
                        | None => PErr EBadNodeId r
                        end
  | PErr e r => PErr e r
  | PPanic p => PPanic p
  | PFuel => PFuel
  end.

(** sJsonParseSession.saveNode, parse_session.go:46-59: [None] is the panic. *)
Definition save_node (sess : list Z) (nid : Z) : option (list Z) :=
  if existsb (Z.eqb nid) sess then None else Some (nid :: sess).

(** parseDict (424-498) + JSONDict.parse (554-565), parseArray (500-552) +
    JSONArray.parse (616-622), and the value switch used by both and by
    ParseStream (464-473, 516-529, 668-678). *)
Fixpoint parse_value (fuel : nat) (sess : list Z) (s : bytes) {struct fuel}
  : pres (json * list Z) :=
  match fuel with
  | O => PFuel
  | S n =>
      match s with
      | [] => PPanic PIndexOutOfRange            (* not reached: callers test i < len *)
      | c :: s' =>
          if beq c "["%byte then
            match array_loop n sess [] s' with
            | POk (l, sess') r => POk (JArray l, sess') r
            | PErr e r => PErr e r
            | PPanic p => PPanic p
            | PFuel => PFuel
            end
          else if beq c "{"%byte then
            match dict_loop n sess sm_empty 0 s' with
            | POk (kvs, nid, sess') r =>
                if 0 <? nid then
                  match save_node sess' nid with
                  | Some sess'' => POk (JDict nid kvs, sess'') r
                  | None => PPanic PDuplicateNode
                  end
                else POk (JDict nid kvs, sess') r
            | PErr e r => PErr e r
            | PPanic p => PPanic p
            | PFuel => PFuel
            end
          else match parse_scalar s with
               | POk v r => POk (v, sess) r
               | PErr e r => PErr e r
               | PPanic p => PPanic p
               | PFuel => PFuel
               end
      end
  end

(** The loop of parseDict, jsonutils.go:434-497 *)
with dict_loop (fuel : nat) (sess : list Z) (acc : smap json) (nid : Z) (s : bytes) {struct fuel}
  : pres (smap json * Z * list Z) :=
  match fuel with
  | O => PFuel
  | S n =>
      match s with
      | [] => POk (acc, nid, sess) []            (* loop condition i < len fails: accepted *)
      | _ =>
        match skip_empty s with
        | [] => PErr ETruncated []
        | c :: s1 =>
          if beq c "}"%byte then POk (acc, nid, sess) s1
          else match parse_string (c :: s1) with
               | PErr e r => PErr e r
               | PPanic p => PPanic p
               | PFuel => PFuel
               | POk (key, _) s2 =>
                 match skip_empty s2 with
                 | [] => PErr ETruncated []
                 | c3 :: s3 =>
                   if negb (beq c3 ":"%byte) then PErr EColonNotFound (c3 :: s3)
                   else match skip_empty s3 with
                        | [] => PErr ETruncated []
                        | c4 :: s4 =>
                          match parse_value n sess (c4 :: s4) with
                          | PErr e r => PErr e r
                          | PPanic p => PPanic p
                          | PFuel => PFuel
                          | POk (v, sess') s5 =>
                            let continue (acc' : smap json) (nid' : Z) :=
                              match skip_empty s5 with
                              | [] => PErr ETruncated []
                              | c6 :: s6 =>
                                if beq c6 ","%byte then dict_loop n sess' acc' nid' s6
                                else if beq c6 "}"%byte then POk (acc', nid', sess') s6
                                else PErr EUnexpectedChar (c6 :: s6)
                              end in
                            if bseq key jnid_key then
                              match v with
                              | JInt z => continue acc z
                              | _ => PPanic PTypeAssertion
                              end
                            else continue (sm_add acc key v) nid
                          end
                        end
                 end
               end
        end
      end
  end

(** The loop of parseArray, jsonutils.go:511-551; [acc] reversed. *)
with array_loop (fuel : nat) (sess : list Z) (acc : list json) (s : bytes) {struct fuel}
  : pres (list json * list Z) :=
  match fuel with
  | O => PFuel
  | S n =>
      match s with
      | [] => POk (rev acc, sess) []             (* loop condition i < len fails: accepted *)
      | _ =>
        match skip_empty s with
        | [] => PErr ETruncated []
        | c :: s1 =>
          if beq c "]"%byte then POk (rev acc, sess) s1
          else match parse_value n sess (c :: s1) with
               | PErr e r => PErr e r
               | PPanic p => PPanic p
               | PFuel => PFuel
               | POk (v, sess') s2 =>
                 match skip_empty s2 with
                 | [] => PErr ETruncated []
                 | c3 :: s3 =>
                   if beq c3 ","%byte then array_loop n sess' (v :: acc) s3
                   else if beq c3 "]"%byte then POk (rev (v :: acc), sess') s3
                   else PErr EUnexpectedChar (c3 :: s3)
                 end
               end
        end
      end
  end.

(** Enough fuel for any input of this length (ParserFacts.v). *)
Definition parse_fuel (s : bytes) : nat := (2 * length s + 2)%nat.

(** ParseStream on the suffix at the given offset, jsonutils.go:661-687. *)
Definition parse_suffix (s : bytes) : pres json :=
  match skip_empty s with
  | [] => PErr EEmptyString []
  | s1 => match parse_value (parse_fuel s1) [] s1 with
          | POk (v, _) r => POk v r
          | PErr e r => PErr e r
          | PPanic p => PPanic p
          | PFuel => PFuel
          end
  end.

(** ParseStream(str, offset) with the offset it returns, jsonutils.go:661-687
    (0 <= offset). *)
Inductive sres : Type :=
| SOk (v : json) (offset : nat)
| SErr (e : perr) (offset : nat)
| SPanic (p : ppanic)
| SFuel.

Definition ParseStream (str : bytes) (offset : nat) : sres :=
  match parse_suffix (skipn offset str) with
  | POk v r => SOk v (length str - length r)
  | PErr e r => SErr e (Nat.max offset (length str - length r))
  | PPanic p => SPanic p
  | PFuel => SFuel
  end.

(** Parse, jsonutils.go:656-659, and ParseString, 652-654 *)
Definition Parse (str : bytes) : sres := ParseStream str 0.

(** ParseJsonStreams, jsonutils.go:689-716.  [None] in the result list of
    errors is not recorded; only their number matters for the outcome. *)
Inductive streams_res : Type :=
| StOk (vs : list json) (nerr : nat)
| StErr (nerr : nat)                     (* aggregated error, nil slice *)
| StPanic (p : ppanic)
| StFuel.

Definition is_open (c : byte) : bool := beq c "["%byte || beq c "{"%byte.

Fixpoint seek_open (s : bytes) : bytes :=
  match s with
  | [] => []
  | c :: s' => if is_open c then s else seek_open s'
  end.

Fixpoint streams_loop (fuel : nat) (vs : list json) (nerr : nat) (s : bytes) : streams_res :=
  match fuel with
  | O => StFuel
  | S n =>
      match seek_open s with
      | [] => match nerr, vs with
              | S _, [] => StErr nerr
              | _, _ => StOk (rev vs) nerr
              end
      | c :: s' =>
          match parse_suffix (c :: s') with
          | POk v r => streams_loop n (v :: vs) nerr r
          | PErr _ _ => streams_loop n vs (S nerr) s'      (* offset++ *)
          | PPanic p => StPanic p
          | PFuel => StFuel
          end
      end
  end.

Definition ParseJsonStreams (stream : bytes) : streams_res :=
  streams_loop (S (length stream)) [] 0 stream.
