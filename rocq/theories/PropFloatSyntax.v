(** C27: which strings are numbers with a fraction, and which number. *)
From Coq Require Import QArith Qpower.
From Verif Require Import Base Strconv SpecFloat SpecFloatText StrconvFacts RoundFacts FloatText RoundUnique SortedMap Json SpecJson Access JErrors ConvertFacts FloatSyntax.
Open Scope Z_scope.

(** A string converts to a float64 exactly if it is a number in Go's syntax
    that is not too large, or a word for infinity or NaN; everything else is
    an error. *)
Theorem C27_string_float_syntax : forall fuel s,
  (forall f, Float_ (S fuel) (JString s) [] = Some (ROk f) <-> float_value s f)
  /\ ((forall f, ~ float_value s f) -> Float_ (S fuel) (JString s) [] = Some (RErr ErrInvalidJsonFloat)).
Proof.
  intros fuel s. cbn [Float_]. split.
  - intros f. rewrite <- parse_float_iff. destruct (parse_float F64 s); split; congruence.
  - intros H. destruct (parse_float F64 s) as [f|] eqn:E; [|reflexivity]. exfalso. apply (H f). apply parse_float_iff. exact E.
Qed.

(** A text stands for at most one number. *)
Theorem C27_float_unique : forall s f g, float_value s f -> float_value s g -> f = g.
Proof. intros s f g F G. apply parse_float_iff in F, G. congruence. Qed.

(** The syntax at work, from the rules alone: underscores, both bases, a point
    without digits before or behind it. *)
Ltac dg := first [left; split; [cbn; lia|reflexivity] | right; left; split; [reflexivity|split; [cbn; lia|reflexivity]] | right; right; split; [reflexivity|split; [cbn; lia|reflexivity]]].
Lemma fdigits_from hex ds : forall s v, fdigits hex s v -> forall w r, fold_right (fun '(c, d) p => fdigit hex c d /\ p) True ds ->
  w = s ++ map fst ds -> r = fold_left (fun a '(_, d) => a * radix hex + d) ds v -> fdigits hex w r.
Proof.
  induction ds as [|[c d] ds IH]; intros s v H w r D -> ->.
  - cbn. rewrite app_nil_r. exact H.
  - destruct D as [D1 D2]. cbn. eapply (IH (s ++ [c]) (v * radix hex + d)); [apply fdigits_snoc; assumption|exact D2| |reflexivity]. rewrite <- app_assoc. reflexivity.
Qed.

Definition ds_ (l : list (string * Z)) : list (byte * Z) := map (fun '(s, v) => (hd x00 (list_byte_of_string s), v)) l.

Lemma decimal_example : go_float (B "-1_23.50_0e+1_2") true false 123500 9.
Proof.
  apply (gf ["-"%byte] true false [] (B "1_23.50_0") (B "e+1_2") 123500 3 12).
  - constructor.
  - reflexivity.
  - apply (mn_point false (B "123") (B "500") 123500); [discriminate|].
    apply (fdigits_from false (ds_ [("1", 1); ("2", 2); ("3", 3); ("5", 5); ("0", 0); ("0", 0)]%string) [] 0); [constructor| |reflexivity|reflexivity]. cbn. repeat split; dg.
  - apply (ex_some false "e"%byte ["+"%byte] (B "1_2") false 12 12 "1"%byte (B "_2")); try reflexivity; try discriminate.
    + left. reflexivity.
    + constructor.
    + apply (fdigits_from false (ds_ [("1", 1); ("2", 2)]%string) [] 0); [constructor| |reflexivity|reflexivity]. cbn. repeat split; dg.
    + left. split; [lia|reflexivity].
  - intros p q E. change ([] ++ B "1_23.50_0" ++ B "e+1_2") with (B "1_23.50_0e+1_2") in E.
    destruct p as [|c1 [|c2 [|c3 [|c4 [|c5 [|c6 [|c7 [|c8 [|c9 [|d1 [|d2 [|d3 [|d4 [|d5 p]]]]]]]]]]]]]]; cbn in E; try discriminate E; injection E; intros; subst.
    + split; [right; exists [], "1"%byte, 1; split; [reflexivity|dg]|eexists; exists 2; eexists; split; [reflexivity|dg]].
    + split; [right; exists (B "1_23.5"), "0"%byte, 0; split; [reflexivity|dg]|eexists; exists 0; eexists; split; [reflexivity|dg]].
    + split; [right; exists (B "1_23.50_0e+"), "1"%byte, 1; split; [reflexivity|dg]|eexists; exists 2; eexists; split; [reflexivity|dg]].
    + destruct p; discriminate.
Qed.

Example C27_string_float_syntax_example :
  float_value (B "-1_23.50_0e+1_2") (FFin true 7904000000000000 (-6))
  /\ float_value (B "0x_1p-2") (FFin false 4503599627370496 (-54))
  /\ float_value (B "0X.8P+1") (FFin false 4503599627370496 (-52))
  /\ float_value (B ".5") (FFin false 4503599627370496 (-53)) /\ float_value (B "+5.") (FFin false 5629499534213120 (-50))
  /\ float_value (B "-InFinity") (FInf true) /\ float_value (B "NAN") FNaN /\ float_value (B "-0") (FFin true 0 (-1074)).
Proof. repeat split; apply parse_float_iff; vm_compute; reflexivity. Qed.

Lemma refused s : parse_float F64 s = None -> forall f, ~ float_value s f.
Proof. intros E f H. apply parse_float_iff in H. congruence. Qed.
Example C27_no_float_example :
  Forall (fun s => forall f, ~ float_value s f)
    (map list_byte_of_string ["1__0"; "_1"; "1_"; "1_.5"; "1._5"; "1e_5"; "1e5_"; "0x1"; "0x"; "0x_p1"; "0xp1"; "1p5"; "."; ""; "+"; "1e"; "--1"; "+nan"; "infin"; "1e999"; " 1"; "0b1"; "0b_1"; "0o7"]%string).
Proof. repeat (constructor; [apply refused; vm_compute; reflexivity|]). constructor. Qed.

Print Assumptions C27_string_float_syntax.
Print Assumptions C27_float_unique.
