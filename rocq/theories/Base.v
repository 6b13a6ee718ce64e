(** Byte strings: Go's [string] and [[]byte] are modelled as [list byte].
    No Go code is modelled in this file; it fixes the vocabulary (byte
    equality, byte order, ASCII classes) used by all other files. *)
From Coq Require Export Strings.Byte Strings.String.
From Coq Require Export List ZArith NArith Lia Bool.
Export ListNotations.
Open Scope list_scope.
Open Scope Z_scope.
Open Scope bool_scope.

Notation byte := Byte.byte (only parsing).
Definition bytes := list byte.

(** String literals; used under [Eval vm_compute] only. *)
Notation B s := (String.list_byte_of_string s%string) (only parsing).

Definition beq (a b : byte) : bool := Byte.eqb a b.
Definition bz (b : byte) : Z := Z.of_N (Byte.to_N b).

Lemma beq_refl a : beq a a = true.
Proof. destruct a; reflexivity. Qed.

Lemma beq_eq a b : beq a b = true <-> a = b.
Proof.
  split; [apply Byte.byte_dec_bl | intros ->; apply beq_refl].
Qed.

Lemma beq_neq a b : beq a b = false <-> a <> b.
Proof.
  split; intros H.
  - intros ->. rewrite beq_refl in H. discriminate.
  - destruct (beq a b) eqn:E; [|reflexivity]. apply beq_eq in E. contradiction.
Qed.

Lemma beq_spec a b : reflect (a = b) (beq a b).
Proof.
  destruct (beq a b) eqn:E; constructor; [apply beq_eq | apply beq_neq]; exact E.
Qed.

Lemma bz_inj a b : bz a = bz b -> a = b.
Proof.
  unfold bz. intros H. apply N2Z.inj in H.
  assert (Some a = Some b) as E
    by (rewrite <- (Byte.of_to_N a), <- (Byte.of_to_N b), H; reflexivity).
  congruence.
Qed.

Lemma bz_range a : 0 <= bz a < 256.
Proof.
  unfold bz. pose proof (Byte.to_N_bounded a). lia.
Qed.

(** Byte of an integer; only used with 0 <= z < 256. *)
Definition zb (z : Z) : byte :=
  match Byte.of_N (Z.to_N z) with Some b => b | None => x00 end.

Lemma zb_bz b : zb (bz b) = b.
Proof. destruct b; reflexivity. Qed.

Lemma bz_zb z : 0 <= z < 256 -> bz (zb z) = z.
Proof.
  intros Hz. unfold zb, bz.
  destruct (Byte.of_N (Z.to_N z)) as [b|] eqn:E.
  - apply Byte.to_of_N in E. rewrite E. lia.
  - apply Byte.of_N_None_iff in E. lia.
Qed.

(** Equality and lexicographic order on byte strings (Go's [==] and [<]
    on strings). *)
Fixpoint bseq (a b : bytes) : bool :=
  match a, b with
  | [], [] => true
  | x :: a', y :: b' => beq x y && bseq a' b'
  | _, _ => false
  end.

Lemma bseq_eq a b : bseq a b = true <-> a = b.
Proof.
  revert b; induction a as [|x a IH]; intros [|y b]; simpl; split; intros H;
    try reflexivity; try discriminate.
  - apply andb_true_iff in H as [H1 H2]. apply beq_eq in H1. apply IH in H2. congruence.
  - injection H as -> ->. rewrite beq_refl. simpl. apply IH. reflexivity.
Qed.

Lemma bseq_refl a : bseq a a = true.
Proof. apply bseq_eq. reflexivity. Qed.

Lemma bseq_neq a b : bseq a b = false <-> a <> b.
Proof.
  split; intros H.
  - intros ->. rewrite bseq_refl in H. discriminate.
  - destruct (bseq a b) eqn:E; [|reflexivity]. apply bseq_eq in E. contradiction.
Qed.

Lemma bseq_spec a b : reflect (a = b) (bseq a b).
Proof.
  destruct (bseq a b) eqn:E; constructor; [apply bseq_eq | apply bseq_neq]; exact E.
Qed.

Fixpoint bcmp (a b : bytes) : comparison :=
  match a, b with
  | [], [] => Eq
  | [], _ :: _ => Lt
  | _ :: _, [] => Gt
  | x :: a', y :: b' =>
      match Z.compare (bz x) (bz y) with Eq => bcmp a' b' | c => c end
  end.

Lemma bcmp_refl a : bcmp a a = Eq.
Proof. induction a as [|x a IH]; simpl; [reflexivity|]. rewrite Z.compare_refl. exact IH. Qed.

Lemma bcmp_eq a b : bcmp a b = Eq <-> a = b.
Proof.
  split.
  - revert b; induction a as [|x a IH]; intros [|y b]; simpl; try discriminate; [reflexivity|].
    destruct (Z.compare_spec (bz x) (bz y)) as [E|E|E]; try discriminate.
    intros H. apply IH in H. apply bz_inj in E. congruence.
  - intros ->. apply bcmp_refl.
Qed.

Lemma bcmp_antisym a b : bcmp b a = CompOpp (bcmp a b).
Proof.
  revert b; induction a as [|x a IH]; intros [|y b]; simpl; try reflexivity.
  rewrite (Z.compare_antisym (bz x) (bz y)).
  destruct (Z.compare (bz x) (bz y)); simpl; [apply IH|reflexivity|reflexivity].
Qed.

Definition blt (a b : bytes) : Prop := bcmp a b = Lt.

Lemma blt_irrefl a : ~ blt a a.
Proof. unfold blt. rewrite bcmp_refl. discriminate. Qed.

Lemma blt_trans a b c : blt a b -> blt b c -> blt a c.
Proof.
  unfold blt. revert b c; induction a as [|x a IH]; intros [|y b] [|z c]; simpl;
    try discriminate; try reflexivity.
  destruct (Z.compare_spec (bz x) (bz y)) as [E1|E1|E1]; try discriminate;
  destruct (Z.compare_spec (bz y) (bz z)) as [E2|E2|E2]; try discriminate; intros H1 H2.
  - rewrite E1, E2, Z.compare_refl. eapply IH; eassumption.
  - assert (bz x < bz z) as L by lia. apply Z.compare_lt_iff in L. rewrite L. reflexivity.
  - assert (bz x < bz z) as L by lia. apply Z.compare_lt_iff in L. rewrite L. reflexivity.
  - assert (bz x < bz z) as L by lia. apply Z.compare_lt_iff in L. rewrite L. reflexivity.
Qed.

Lemma blt_asym a b : blt a b -> ~ blt b a.
Proof. intros H1 H2. exact (blt_irrefl _ (blt_trans _ _ _ H1 H2)). Qed.

Lemma blt_neq a b : blt a b -> a <> b.
Proof. intros H ->. exact (blt_irrefl _ H). Qed.

Lemma bcmp_gt a b : bcmp a b = Gt <-> blt b a.
Proof.
  unfold blt. rewrite (bcmp_antisym a b). destruct (bcmp a b); simpl; split; congruence.
Qed.

Lemma blt_total a b : blt a b \/ a = b \/ blt b a.
Proof.
  destruct (bcmp a b) eqn:E.
  - right; left. apply bcmp_eq. exact E.
  - left. exact E.
  - right; right. apply bcmp_gt. exact E.
Qed.

(** ASCII classes. *)
Definition is_digit (c : byte) : bool := (48 <=? bz c) && (bz c <=? 57).
Definition digit_val (c : byte) : Z := bz c - 48.
Definition digit_byte (d : Z) : byte := zb (48 + d).

(** ASCII lower-casing of one byte (strconv's [lower], and the ASCII part of
    [strings.ToLower]). *)
Definition lowerb (c : byte) : byte :=
  if (65 <=? bz c) && (bz c <=? 90) then zb (bz c + 32) else c.
Definition lowers (s : bytes) : bytes := map lowerb s.

Lemma digit_byte_is_digit d : 0 <= d < 10 -> is_digit (digit_byte d) = true.
Proof.
  intros H. unfold is_digit, digit_byte. rewrite bz_zb by lia. lia.
Qed.

Lemma digit_val_byte d : 0 <= d < 10 -> digit_val (digit_byte d) = d.
Proof. intros H. unfold digit_val, digit_byte. rewrite bz_zb by lia. lia. Qed.
