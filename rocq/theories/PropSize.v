(** C71: parsing does not amplify. *)
From Coq Require Import Lia List Sorting.Sorted.
From Verif Require Import Base Strconv Json SpecJson SpecRFC SpecScalar SpecText SpecLenient SpecSize SortedMap AccessFacts Printer Parser LenientFacts PropLenient PropUtf8 PropStreams.
Import ListNotations.
Open Scope nat_scope.

Definition weight (v : json) : nat := nodes v + text_bytes v.
Definition kv_weight (kv : bytes * json) : nat := length (fst kv) + weight (snd kv).

Lemma utf8_short cp u : utf8 cp u -> length u <= 3.
Proof. intros H. inversion H; cbn; lia. Qed.
Lemma char_short q t u : lib_char q t u -> length u <= length t.
Proof. intros H. inversion H; subst; cbn; try lia. match goal with U : utf8 _ _ |- _ => apply utf8_short in U; lia end. Qed.
Lemma chars_short q t u : lib_chars q t u -> length u <= length t.
Proof. induction 1 as [|t u ts us L _ IH]; [lia|]. apply char_short in L. rewrite !app_length. lia. Qed.
Lemma unfinished_short q t u : unfinished q t u -> length u <= length t.
Proof. induction 1 as [|t u L _|t u ts us L _ _ IH]; [lia|apply char_short in L; exact L|]. apply char_short in L. rewrite !app_length. lia. Qed.
Lemma name_short kt k : name kt k -> length k <= length kt.
Proof. intros N. inversion N as [q body u Q L|]; subst; [|lia]. apply chars_short in L. cbn. rewrite app_length. cbn. lia. Qed.

Lemma sum_incl {A} (f : A -> nat) l : forall m, NoDup l -> incl l m -> list_sum (map f l) <= list_sum (map f m).
Proof.
  induction l as [|x l IH]; intros m N I; [cbn; lia|]. inversion N as [|y l' Nx Nl]; subst.
  destruct (in_split x m (I x (or_introl eq_refl))) as (a & b & ->).
  rewrite map_app, list_sum_app. cbn [map list_sum fold_right].
  assert (J : incl l (a ++ b)).
  { intros y Iy. pose proof (I y (or_intror Iy)) as H. apply in_app_or in H. apply in_or_app. destruct H as [H|[->|H]]; auto. contradiction. }
  specialize (IH _ Nl J). rewrite map_app, list_sum_app in IH. unfold list_sum in *. lia.
Qed.

Lemma keys_nodup kvs : keys_increasing kvs -> NoDup kvs.
Proof.
  unfold keys_increasing. intros H. apply (NoDup_map_inv fst). induction H as [|k ks _ IH F]; [constructor|]. constructor; [|exact IH].
  intros I. rewrite Forall_forall in F. specialize (F k I). exact (blt_irrefl k F).
Qed.

Lemma array_weight l : weight (JArray l) = S (list_sum (map weight l)).
Proof.
  assert (E : forall m, list_sum (map nodes m) + list_sum (map text_bytes m) = list_sum (map weight m)); [|unfold weight at 1; cbn [nodes text_bytes]; rewrite <- E; reflexivity].
  induction m as [|v m IH]; [reflexivity|]. cbn [map]. unfold list_sum in *. cbn [fold_right]. unfold weight at 1. lia.
Qed.
Lemma dict_weight nid kvs : weight (JDict nid kvs) = S (list_sum (map kv_weight kvs)).
Proof.
  assert (E : forall m, list_sum (map (fun kv : bytes * json => nodes (snd kv)) m) + list_sum (map (fun kv : bytes * json => length (fst kv) + text_bytes (snd kv)) m) = list_sum (map kv_weight m));
    [|unfold weight; cbn [nodes text_bytes]; rewrite <- E; reflexivity].
  induction m as [|v m IH]; [reflexivity|]. cbn [map]. unfold list_sum in *. cbn [fold_right]. unfold kv_weight at 1, weight. lia.
Qed.

Definition starts_with_bracket (t : bytes) : Prop := exists c r, t = c :: r /\ bracket c.

Lemma word_weight t v : word_value t v -> t <> [] -> weight v <= length t + 1.
Proof. intros W N. destruct t as [|c t]; [congruence|]. inversion W; subst; cbn; lia. Qed.

Lemma parsed_weight :
  (forall c t v ids, lval c t v ids -> weight v <= length t + 1 /\ (starts_with_bracket t -> weight v <= length t)) /\
  (forall c t l ids, larray c t l ids -> list_sum (map weight l) <= length t) /\
  (forall c t ms ids, ldict c t ms ids -> list_sum (map kv_weight ms) <= length t).
Proof.
  apply len_ind.
  - intros t v Ne _ Hd W. split; [apply word_weight; assumption|]. intros (c & r & E & B). destruct (Hd c r E). contradiction.
  - intros q body u Q L. apply chars_short in L. unfold weight. cbn. rewrite app_length. cbn. lia.
  - intros q body u Q L. apply unfinished_short in L. unfold weight. cbn. lia.
  - intros c t l ids _ IH. rewrite array_weight. cbn [length]. lia.
  - intros c t ms nid kvs ids _ IH M. rewrite dict_weight. cbn [length].
    pose proof (sum_incl kv_weight kvs ms) as S. destruct M as (A1 & A2 & Ki & A3 & A4).
    assert (list_sum (map kv_weight kvs) <= list_sum (map kv_weight ms)); [|lia].
    apply S; [apply keys_nodup, Ki|]. intros [k v] I. apply (members_in ms nid kvs); [repeat split; assumption|exact I].
  - cbn. lia.
  - intros w _. cbn. lia.
  - intros w1 t w2 v ids _ _ [IH _] _. unfold list_sum. rewrite !app_length. cbn [length map fold_right]. lia.
  - intros c w1 t w2 v ids t' l ids' _ _ [IH _] _ _ IH'. unfold list_sum in *. cbn [map fold_right]. rewrite !app_length. cbn [length]. lia.
  - cbn. lia.
  - intros w _. cbn. lia.
  - intros w1 kt k w2 w3 t w4 v ids _ N _ _ _ [IH _] _. apply name_short in N. unfold list_sum. rewrite ?app_length. cbn [length]. rewrite ?app_length. cbn [length]. unfold kv_weight. cbn [fst snd map fold_right]. lia.
  - intros c w1 kt k w2 w3 t w4 v ids t' ms ids' _ N _ _ _ [IH _] _ _ IH'. apply name_short in N. unfold list_sum in *. rewrite !app_length. cbn [length map fold_right]. rewrite ?app_length. cbn [length]. rewrite ?app_length. cbn [length].
    unfold kv_weight at 1. cbn [fst snd map fold_right]. lia.
Qed.

(** The values and the bytes of strings and names in what Parse returns are at
    most one more than the bytes it has read. *)
Theorem C71_size s v o : Parse s = SOk v o -> nodes v + text_bytes v <= o + 1.
Proof.
  intros P. apply C54_language in P as (w & c & t & ids & rest & -> & W & L & _ & _ & ->). apply parsed_weight in L as [L _]. unfold weight in L. lia.
Qed.
Corollary C71_size_input s v o : Parse s = SOk v o -> nodes v + text_bytes v <= length s + 1.
Proof.
  intros P. pose proof (C71_size s v o P) as H. apply C54_language in P as (w & c & t & ids & rest & -> & _ & _ & _ & _ & ->). rewrite !app_length. lia.
Qed.

(** ** Depth *)

Lemma openings_app a b : openings (a ++ b) = openings a + openings b.
Proof. unfold openings. rewrite filter_app, app_length. reflexivity. Qed.
Lemma openings_cons c a : openings (c :: a) = (if opening c then 1 else 0) + openings a.
Proof. unfold openings. cbn. destruct (opening c); reflexivity. Qed.

Lemma max_incl {A} (f : A -> nat) l m : incl l m -> list_max (map f l) <= list_max (map f m).
Proof.
  intros I. apply list_max_le. apply Forall_forall. intros n J. apply in_map_iff in J as (x & <- & J). apply I in J.
  pose proof (proj1 (list_max_le (map f m) _) (le_n _)) as F. rewrite Forall_forall in F. apply F, in_map, J.
Qed.

Definition kv_depth (kv : bytes * json) : nat := depth (snd kv).

Lemma parsed_depth :
  (forall c t v ids, lval c t v ids -> depth v <= openings t) /\
  (forall c t l ids, larray c t l ids -> list_max (map depth l) <= openings t) /\
  (forall c t ms ids, ldict c t ms ids -> list_max (map kv_depth ms) <= openings t).
Proof.
  apply len_ind.
  - intros t v _ _ _ W. inversion W; subst; cbn; lia.
  - intros q body u _ _. cbn. lia.
  - intros q body u _ _. cbn. lia.
  - intros c t l ids _ IH. rewrite openings_cons. cbn. lia.
  - intros c t ms nid kvs ids _ IH M. rewrite openings_cons. cbn [depth opening beq]. change (opening "{"%byte) with true. cbn.
    assert (list_max (map kv_depth kvs) <= list_max (map kv_depth ms)); [|unfold kv_depth in *; lia].
    apply max_incl. intros [k v] I. apply (members_in ms nid kvs M k v I).
  - cbn. lia.
  - intros w _. cbn. lia.
  - intros w1 t w2 v ids _ _ IH _. unfold list_max. rewrite !openings_app. cbn [map fold_right]. lia.
  - intros c w1 t w2 v ids t' l ids' _ _ IH _ _ IH'. unfold list_max in *. rewrite !openings_app, openings_cons. cbn [map fold_right]. lia.
  - cbn. lia.
  - intros w _. cbn. lia.
  - intros w1 kt k w2 w3 t w4 v ids _ N _ _ _ IH _. unfold list_max. rewrite !openings_app, openings_cons, !openings_app. cbn [map fold_right]. unfold kv_depth. cbn [snd]. lia.
  - intros c w1 kt k w2 w3 t w4 v ids t' ms ids' _ N _ _ _ IH _ _ IH'. unfold list_max in *. rewrite !openings_app, openings_cons, !openings_app, openings_cons.
    cbn [map fold_right]. unfold kv_depth at 1. cbn [snd]. lia.
Qed.

(** Values are nested at most as deeply as there are opening brackets in what
    Parse has read. *)
Theorem C71_depth s v o : Parse s = SOk v o -> depth v <= openings (firstn o s).
Proof.
  intros P. apply C54_language in P as (w & c & t & ids & rest & -> & W & L & _ & _ & ->). apply parsed_depth in L.
  rewrite app_assoc, <- app_length, firstn_app, firstn_all, Nat.sub_diag, firstn_O, app_nil_r, openings_app. lia.
Qed.

(** ** Streams *)

Lemma stream_weight s vs k o : splits s vs k o -> list_sum (map weight vs) <= length s.
Proof.
  induction 1 as [w _|w c s v n vs k o _ B L _ IH|w c s e n vs k o _ _ _ _ IH|w c s p n _ _ _].
  - cbn. lia.
  - destruct L as (w' & cc & t & ids & rest & E & W & L & _ & _ & ->).
    assert (w' = [] /\ starts_with_bracket t) as [-> S].
    { destruct w' as [|d w'].
      - split; [reflexivity|]. cbn in E. destruct (lval_head _ _ _ _ L) as (x & t' & -> & _). injection E as <- _. exists c, t'. auto.
      - exfalso. injection E as <- _. inversion W; subst. destruct B as [->| ->]; repeat match goal with H : _ \/ _ |- _ => destruct H; try discriminate | H : In _ _ |- _ => cbn in H | H : False |- _ => destruct H end. }
    apply parsed_weight in L as [_ L]. specialize (L S). rewrite app_length. rewrite E in *. cbn [app length Nat.add] in *.
    rewrite skipn_length in IH. rewrite app_length in *. cbn [map]. change (list_sum (weight v :: map weight vs)) with (weight v + list_sum (map weight vs)). lia.
  - rewrite app_length. cbn. lia.
  - cbn. lia.
Qed.

(** All the values of a stream together are no larger than the stream. *)
Theorem C71_streams s vs k : ParseJsonStreams s = StOk vs k -> list_sum (map nodes vs) + list_sum (map text_bytes vs) <= length s.
Proof.
  intros P. destruct (splits_total (S (length s)) s ltac:(lia)) as (vs' & k' & o & S). pose proof (C12_exact _ _ _ _ S) as E. rewrite P in E.
  assert (vs' = vs) as ->. { destruct o; [discriminate|]. destruct k', vs'; congruence. }
  apply stream_weight in S. assert (X : list_sum (map weight vs) = list_sum (map nodes vs) + list_sum (map text_bytes vs)); [|lia].
  clear. induction vs as [|v vs IH]; [reflexivity|]. cbn [map list_sum fold_right] in *. unfold list_sum, weight in *. lia.
Qed.

(** ** Printing *)

Lemma escape_short c : length (escape_char c) <= 6.
Proof. destruct c; vm_compute; lia. Qed.

(** A string is printed with at most six bytes for a byte. *)
Theorem C71_string s : length s + 2 <= length (String_ (JString s)) <= 6 * length s + 2.
Proof.
  assert (E : length s <= length (flat_map escape_char s) <= 6 * length s).
  { induction s as [|c s IH]; [cbn; lia|]. cbn [flat_map length]. rewrite app_length. pose proof (escape_short c).
    assert (1 <= length (escape_char c)) by (destruct c; vm_compute; lia). lia. }
  cbn. rewrite app_length. cbn. lia.
Qed.

(** Numbers are another matter: five bytes can print as 309. *)
Example C71_number : exists v, Parse (B "1e308") = SOk v 5 /\ length (String_ v) = 309.
Proof. eexists. split; [vm_compute; reflexivity|]. vm_compute. reflexivity. Qed.

Example C71_example : exists v, Parse (B "{a:[1 ,'x',{}],b:word}") = SOk v 22 /\ nodes v = 6 /\ text_bytes v = 7 /\ depth v = 3 /\ openings (B "{a:[1 ,'x',{}],b:word}") = 3.
Proof. eexists. split; [vm_compute; reflexivity|]. vm_compute. repeat split. Qed.

Print Assumptions C71_size.
Print Assumptions C71_size_input.
Print Assumptions C71_depth.
Print Assumptions C71_streams.
Print Assumptions C71_string.
