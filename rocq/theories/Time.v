(** Model of NewTimeString (utils.go:62-64) and GetTime (access.go:481-521,
    jsonpointer.go:154-156 is in Linked.v).

    Package time is not in /repo.  A time.Time is represented by the instant
    it stands for (its location does not matter here: the code calls UTC()).
    [date_of] is the algorithm of time.Time.Date, with the days counted from
    0001-01-01 and floored division in place of Go's unsigned absolute days.
    Text is produced as by time.Time.Format. *)
From Verif Require Import Base Strconv Json Access.

(** time.Time: seconds since 1970-01-01T00:00:00Z, nanoseconds in the second *)
Record instant := Instant { t_sec : Z; t_nsec : Z }.

Definition is_leap (y : Z) : bool := (y mod 4 =? 0) && (negb (y mod 100 =? 0) || (y mod 400 =? 0)).

(** days before month m (0 = January) in a year that is not leap *)
Definition days_before (m : Z) : Z :=
  nth (Z.to_nat m) [0; 31; 59; 90; 120; 151; 181; 212; 243; 273; 304; 334; 365] 0.

(** Time.Date; [d0] is the number of days since 1970-01-01 *)
Definition date_of (d0 : Z) : Z * Z * Z :=
  let d := d0 + 719162 in
  let n := d / 146097 in let y := 400 * n in let d := d - 146097 * n in
  let n := d / 36524 in let n := n - n / 4 in let y := y + 100 * n in let d := d - 36524 * n in
  let n := d / 1461 in let y := y + 4 * n in let d := d - 1461 * n in
  let n := d / 365 in let n := n - n / 4 in let y := y + n in let d := d - 365 * n in
  let y := y + 1 in
  if is_leap y && (d =? 59) then (y, 2, 29)
  else
    let d := if is_leap y && (59 <? d) then d - 1 else d in
    let m := d / 31 in
    let e := days_before (m + 1) in
    if e <=? d then (y, m + 2, d - e + 1) else (y, m + 1, d - days_before m + 1).

(** appendInt(b, x, width) of Time.Format *)
Definition append_int (x : Z) (width : Z) : bytes :=
  if x <? 0 then "-"%byte :: (let t := format_uint (- x) in zeros (width - Z.of_nat (length t)) ++ t)
  else let t := format_uint x in zeros (width - Z.of_nat (length t)) ++ t.

(** tm.UTC().Format("2006-01-02T15:04:05Z") *)
Definition format_utc (t : instant) : bytes :=
  let '(y, m, d) := date_of (t_sec t / 86400) in
  let r := t_sec t mod 86400 in
  append_int y 4 ++ B "-" ++ append_int m 2 ++ B "-" ++ append_int d 2 ++ B "T"
  ++ append_int (r / 3600) 2 ++ B ":" ++ append_int (r mod 3600 / 60) 2 ++ B ":" ++ append_int (r mod 60) 2 ++ B "Z".

(** NewTimeString, utils.go:62-64 *)
Definition new_time_string (t : instant) : json := JString (format_utc t).

(** The parsers GetTime calls: timeutils.ParseTimeStr, and time.Parse with the
    layouts RFC3339, RFC1123, UnixDate, RFC822 in this order. *)
Record time_parsers := { parse_time_str : bytes -> option instant; rfc3339 : bytes -> option instant;
  rfc1123 : bytes -> option instant; unix_date : bytes -> option instant; rfc822 : bytes -> option instant }.

(** the loop over the layouts, access.go:493-500 *)
Fixpoint first_layout (ps : list (bytes -> option instant)) (s : bytes) : res instant :=
  match ps with
  | [] => RErr ErrUnsupported
  | p :: ps' => match p s with Some t => ROk t | None => first_layout ps' s end
  end.

(** GetTime of a JSONString, access.go:485-502 *)
Definition str_get_time (P : time_parsers) (s : bytes) (keys : list bytes) : res instant :=
  match keys with
  | _ :: _ => RErr ErrOutOfKeyRange
  | [] => match parse_time_str P s with
          | Some t => ROk t
          | None => first_layout [rfc3339 P; rfc1123 P; unix_date P; rfc822 P] s
          end
  end.

(** GetTime: JSONString access.go:485-502, JSONDict access.go:511-521, the
    others JSONValue access.go:481-483 *)
Definition GetTime (P : time_parsers) (o : json) (keys : list bytes) : res instant :=
  match o with
  | JString s => str_get_time P s keys
  | JDict _ _ => rbind (Get o keys) (fun v => match v with JString s => str_get_time P s [] | _ => RErr ErrInvalidJsonString end)
  | _ => RErr ErrUnsupported
  end.
