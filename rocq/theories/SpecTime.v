(** What UTC dates and texts like 2006-01-02T15:04:05Z mean: the Gregorian
    calendar as a succession of days, and ISO 8601 times of that form. *)
From Verif Require Import Base SpecRFC.

Record date := Date { year : Z; month : Z; day : Z }.

Definition leap (y : Z) : bool :=
  ((y mod 4 =? 0) && negb (y mod 100 =? 0)) || (y mod 400 =? 0).

Definition month_days (y m : Z) : Z :=
  if m =? 2 then if leap y then 29 else 28
  else if (m =? 4) || (m =? 6) || (m =? 9) || (m =? 11) then 30 else 31.

Definition is_date (x : date) : Prop :=
  1 <= month x <= 12 /\ 1 <= day x <= month_days (year x) (month x).

Definition tomorrow (x : date) : date :=
  if day x <? month_days (year x) (month x) then Date (year x) (month x) (day x + 1)
  else if month x <? 12 then Date (year x) (month x + 1) 1
  else Date (year x + 1) 1 1.

(** The date of the n-th day, counted from 1970-01-01, forwards and backwards. *)
Inductive on_day : Z -> date -> Prop :=
| od_epoch : on_day 0 (Date 1970 1 1)
| od_later n x : on_day n x -> on_day (n + 1) (tomorrow x)
| od_earlier n x : is_date x -> on_day (n + 1) (tomorrow x) -> on_day n x.

(** [s] is the number [v], written with [k] decimal digits *)
Definition number (k : nat) (s : bytes) (v : Z) : Prop :=
  length s = k /\ Forall digit s /\ dec_value s = v.

(** The text [t] means the second [a], counted from 1970-01-01T00:00:00Z
    without leap seconds. *)
Inductive iso_time : bytes -> Z -> Prop :=
| it_intro ty tm td th ti ts y m d n h mi s :
    number 4 ty y -> number 2 tm m -> number 2 td d -> on_day n (Date y m d) ->
    number 2 th h -> h < 24 -> number 2 ti mi -> mi < 60 -> number 2 ts s -> s < 60 ->
    iso_time (ty ++ B "-" ++ tm ++ B "-" ++ td ++ B "T" ++ th ++ B ":" ++ ti ++ B ":" ++ ts ++ B "Z")
             (n * 86400 + h * 3600 + mi * 60 + s).

(** Years beyond 0000-9999: as many digits as needed, at least four, and a minus
    sign in front of years before the year 0. *)
Inductive year_text : bytes -> Z -> Prop :=
| yt_four ty y : number 4 ty y -> year_text ty y
| yt_more k ty y : number (Datatypes.S k) ty y -> (4 <= k)%nat -> 10 ^ Z.of_nat k <= y -> year_text ty y
| yt_before ty y : year_text ty y -> 0 < y -> year_text ("-"%byte :: ty) (- y).

(** The same texts with any year *)
Inductive wide_time : bytes -> Z -> Prop :=
| wt_intro ty tm td th ti ts y m d n h mi s :
    year_text ty y -> number 2 tm m -> number 2 td d -> on_day n (Date y m d) ->
    number 2 th h -> h < 24 -> number 2 ti mi -> mi < 60 -> number 2 ts s -> s < 60 ->
    wide_time (ty ++ B "-" ++ tm ++ B "-" ++ td ++ B "T" ++ th ++ B ":" ++ ti ++ B ":" ++ ts ++ B "Z")
              (n * 86400 + h * 3600 + mi * 60 + s).
