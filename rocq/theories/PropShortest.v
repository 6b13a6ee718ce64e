(** C39, C45: the text of a float is the shortest one. *)
From Coq Require Import QArith Qabs.
From Verif Require Import Base Strconv StrconvFacts SpecFloat RoundFacts FloatText RoundUnique FloatWidth Shortest Json Printer Access SpecRFC PrintFacts PrintFacts2 Unmarshal Construct.
Open Scope Z_scope.

(** The text of a finite float other than zero denotes a decimal number
    d * 10^j, with no more decimals than that; it is read as the float, and of
    all decimal numbers c * 10^i that are (nearer to the float than to any
    other, and no overflow) none has a greater exponent, none has fewer digits,
    and none with this exponent is nearer to the float.  For float64 and
    float32. *)
Theorem C39_shortest F neg m e : F = F64 \/ F = F32 -> canon F m e = true -> 0 < m ->
  exists ip fs d j, format_float F (FFin neg m e) = minus neg ++ ip ++ (match fs with [] => [] | _ => "."%byte :: fs end)
    /\ rfc_int ip /\ Forall digit fs
    /\ (decq (dec_value (ip ++ fs)) (- Z.of_nat (length fs)) == decq d j)%Q /\ Z.of_nat (length fs) = Z.max 0 (- j)
    /\ 0 < d /\ correctly_rounded F (decq d j) m e /\ ~ overflows F (decq d j)
    /\ forall c i, 0 < c -> correctly_rounded F (decq c i) m e -> ~ overflows F (decq c i) ->
         i <= j /\ (forall n, 0 <= n -> 10 ^ n <= d -> 10 ^ n <= c) /\
         (i = j -> Qabs (fq m e - decq d j) <= Qabs (fq m e - decq c i))%Q.
Proof.
  intros HF Hc Hm. assert (format_valid F) as Hv by (destruct HF as [->| ->]; [exact F64_valid | exact StrconvFacts.F32_valid]).
  unfold format_float. rewrite (proj2 (Z.eqb_neq m 0)) by lia.
  destruct (shortest F m e) as [d j] eqn:Es. destruct (shortest_best F m e d j Hv Hc Hm Es) as [(Hd & R & O) B].
  change (if neg then ["-"%byte] else []) with (minus neg).
  destruct (layout_rfc d j Hd) as [(Hj & ip & -> & Hip & Hval)|(Hj & ip & fs & -> & Hip & Hfs & Hval & Hlen)].
  - exists ip, [], d, j. split; [rewrite app_nil_r; reflexivity|]. split; [exact Hip|]. split; [constructor|]. split.
    { rewrite app_nil_r, Hval. rewrite (decq_int d j) by exact Hj. unfold decq. cbn [length Z.of_nat Z.opp Qpower]. rewrite Qmult_1_r. reflexivity. }
    split; [cbn; lia|]. split; [exact Hd|]. split; [exact R|]. split; [exact O|]. intros c i Pc Rc Oc. apply B. split; [exact Pc|split; assumption].
  - destruct Hfs as [Hne Hfs]. exists ip, fs, d, j. destruct fs as [|f fs]; [congruence|].
    split; [reflexivity|]. split; [exact Hip|]. split; [exact Hfs|]. split; [rewrite Hval, Hlen; replace (- - j) with j by lia; reflexivity|].
    split; [lia|]. split; [exact Hd|]. split; [exact R|]. split; [exact O|]. intros c i Pc Rc Oc. apply B. split; [exact Pc|split; assumption].
Qed.

Lemma to_f32_widened f : fl_ok F32 f = true -> to_f32 (to_f64 f) = f.
Proof.
  intros C. pose proof (to_f64_widens f C) as W. destruct f as [|neg|neg m e]; cbn [widens] in W; try (rewrite W; reflexivity).
  destruct W as (m' & e' & E & C' & V). rewrite E. cbn in C.
  assert (0 <= m') as P by (unfold canon in C'; rewrite !andb_true_iff, !Z.leb_le in C'; lia).
  assert (0 <= m) as P0 by (unfold canon in C; rewrite !andb_true_iff, !Z.leb_le in C; lia).
  pose proof (to_f32_rounds neg m' e' P) as R. destruct R as [[Z0 ->]|[(P1 & O & _)|(P1 & NO & m2 & e2 & -> & R)]].
  - assert (m = 0) as ->. { destruct (Z.eq_dec m 0); [assumption|]. exfalso. pose proof (fq_pos m e ltac:(lia)) as X. rewrite <- V, Z0 in X. discriminate X. }
    rewrite (canon_zero F32 e StrconvFacts.F32_valid C). reflexivity.
  - exfalso. apply (canon_no_overflow F32 m e StrconvFacts.F32_valid C). unfold overflows in *. rewrite <- V. exact O.
  - destruct (canon_fq_inj F32 m2 e2 m e StrconvFacts.F32_valid (proj1 R) C) as [-> ->]; [|reflexivity].
    rewrite <- V. apply (rounded_exact F32 (fq m' e') m2 e2 m e R C). exact V.
Qed.

(** NewFloat64 prints the shortest text of the float64, NewFloat32 the one of
    the float32 (which is mostly shorter than that of the same number as a
    float64); [format_float] is the text of C39. *)
Theorem C45_new_float_text :
  (forall f, String_ (NewFloat64 f) = format_float F64 f) /\
  (forall f, fl_ok F32 f = true -> String_ (NewFloat32 f) = format_float F32 f).
Proof. split; [reflexivity|]. intros f C. change (String_ (NewFloat32 f)) with (format_float F32 (to_f32 (to_f64 f))). rewrite to_f32_widened by exact C. reflexivity. Qed.

(** float32(0.1) *)
Example C39_shortest_instances :
  format_float F32 (FFin false 13421773 (-27)) = B "0.1" /\ canon F32 13421773 (-27) = true /\
  String_ (NewFloat64 (to_f64 (FFin false 13421773 (-27)))) = B "0.10000000149011612".
Proof. split; [vm_compute; reflexivity|]. split; [reflexivity|vm_compute; reflexivity]. Qed.

Print Assumptions C39_shortest.
Print Assumptions C45_new_float_text.
