(** What QueryString writes: C24. *)
From Verif Require Import Base Strconv StrconvFacts SortedMap Json SpecJson Printer Query SpecQuery QueryFacts3 SpecQueryText.

Lemma joins c ls : Forall (fun l => l <> []) ls -> join_with c (map (join_with c) ls) = join_with c (concat ls).
Proof.
  assert (A : forall x y, x <> [] -> y <> [] -> join_with c (x ++ y) = join_with c x ++ c :: join_with c y).
  { intros x y Nx Ny. induction x as [|a x IH]; [contradiction|]. destruct x as [|b x].
    - cbn. destruct y; [contradiction|reflexivity].
    - change ((a :: b :: x) ++ y) with (a :: (b :: x) ++ y). cbn [join_with]. change ((b :: x) ++ y) with (b :: x ++ y) at 1. cbn [app]. change (b :: x ++ y) with ((b :: x) ++ y).
      rewrite IH by discriminate. rewrite <- app_assoc. reflexivity. }
  induction 1 as [|l ls Nl Nls IH]; [reflexivity|]. destruct ls as [|l' ls]; [cbn; rewrite app_nil_r; reflexivity|].
  cbn [map concat]. rewrite A; [|exact Nl|]. 2:{ inversion Nls. cbn. destruct l'; [contradiction|discriminate]. }
  change (concat (l' :: ls)) with (concat (l' :: ls)) in *. cbn [map concat] in IH. rewrite <- IH. reflexivity.
Qed.
Lemma dotted_snoc k : forall p, dotted (p ++ [k]) = sub_key (dotted p) k.
Proof.
  assert (J : forall x p, join_with "."%byte (x :: p ++ [k]) = join_with "."%byte (x :: p) ++ "."%byte :: k).
  { intros x p. revert x. induction p as [|y p IH]; intros x; [reflexivity|]. cbn [app]. change (join_with "."%byte (x :: y :: p ++ [k])) with (x ++ "."%byte :: join_with "."%byte (y :: p ++ [k])).
    rewrite IH. change (join_with "."%byte (x :: y :: p)) with (x ++ "."%byte :: join_with "."%byte (y :: p)). rewrite <- app_assoc. reflexivity. }
  induction p as [|x p IH]; [destruct k; reflexivity|]. destruct x as [|c x]; [exact IH|].
  cbn [app dotted]. change ((c :: x) :: p ++ [k]) with ((c :: x) :: p ++ [k]). rewrite J.
  assert (N : join_with "."%byte ((c :: x) :: p) <> []) by (destruct p; discriminate). assert (S : forall w, w <> [] -> w ++ "."%byte :: k = sub_key w k) by (intros [|w ws] Nw; [contradiction|reflexivity]). apply S, N.
Qed.
Lemma row_simple p v : row_text (p, Some v) = simple_query_string (dotted p) v.
Proof. unfold row_text, simple_query_string. cbn [fst snd]. destruct (dotted p), v; cbn; rewrite ?app_nil_r; reflexivity. Qed.

Fixpoint row_lists (i : Z) (l : list json) : list (list (list bytes * option bytes)) :=
  match l with [] => [] | x :: l' => under (format_int i) (rows x) :: row_lists (i + 1) l' end.
Lemma rows_arr x l : rows (JArray (x :: l)) = concat (row_lists 0 (x :: l)).
Proof. cbn [rows]. generalize 0. revert x. induction l as [|y l IH]; intros x i; [reflexivity|]. cbn [row_lists concat]. f_equal. apply IH. Qed.
Lemma rows_dict nid kv kvs : rows (JDict nid (kv :: kvs)) = concat (map (fun kv => under (fst kv) (rows (snd kv))) (kv :: kvs)).
Proof. cbn [rows]. revert kv. induction kvs as [|y l IH]; intros [k x]; [reflexivity|]. cbn [map concat fst snd]. f_equal. apply IH. Qed.
Lemma rows_some j : rows j <> [].
Proof.
  induction j as [| | | | |l H|nid kvs H|] using json_ind'; try discriminate.
  - destruct l as [|x l]; [discriminate|]. rewrite rows_arr. inversion H. cbn. destruct (rows x); [contradiction|discriminate].
  - destruct kvs as [|[k x] kvs]; [discriminate|]. rewrite rows_dict. inversion H. cbn in *. destruct (rows x); [contradiction|discriminate].
Qed.

Definition at_path (p : list bytes) (r : list (list bytes * option bytes)) : list bytes := map (fun x => row_text (p ++ fst x, snd x)) r.
Lemma at_under p k r : at_path p (under k r) = at_path (p ++ [k]) r.
Proof. unfold at_path, under. rewrite map_map. apply map_ext. intros x. cbn [fst snd]. rewrite <- app_assoc. reflexivity. Qed.
Lemma at_concat p ls : at_path p (concat ls) = concat (map (at_path p) ls).
Proof. apply concat_map. Qed.
Lemma query_rows j : forall p, query_string j (dotted p) = join_with "&"%byte (at_path p (rows j)).
Proof.
  induction j as [| | | | |l H|nid kvs H|] using json_ind'; intros p; try (cbn [rows at_path map fst snd join_with]; rewrite app_nil_r; try rewrite row_simple; reflexivity).
  - destruct l as [|x l]; [reflexivity|]. rewrite query_string_arr, rows_arr, at_concat, <- joins.
    + f_equal. generalize 0. revert H. generalize (x :: l). clear x l. induction 1 as [|x l Hx _ IH]; intros i; [reflexivity|].
      cbn [qs_arr row_lists map]. rewrite <- dotted_snoc, Hx, <- at_under. f_equal. apply IH.
    + generalize 0. generalize (x :: l). clear. induction l as [|x l IH]; intros i; constructor; [|apply IH]. rewrite at_under. unfold at_path. pose proof (rows_some x). destruct (rows x); [contradiction|discriminate].
  - destruct kvs as [|kv kvs]; [reflexivity|]. rewrite query_string_dict, rows_dict, at_concat, <- joins.
    + f_equal. revert H. generalize (kv :: kvs). clear kv kvs. induction 1 as [|[k x] l Hx _ IH]; [reflexivity|].
      cbn [qs_dict map fst snd] in *. rewrite <- dotted_snoc, Hx, <- at_under. f_equal. apply IH.
    + generalize (kv :: kvs). clear. induction l as [|[k x] l IH]; constructor; [|apply IH]. rewrite at_under. unfold at_path. cbn [snd]. pose proof (rows_some x). destruct (rows x); [contradiction|discriminate].
Qed.

(** The query string of any dict has one part for each leaf and each empty
    container, in order: the path to the leaf and its text, escaped. *)
Theorem C24_text : forall nid kvs, QueryString (JDict nid kvs) = join_with "&"%byte (map row_text (rows (JDict nid kvs))).
Proof. intros nid kvs. unfold QueryString. rewrite (query_rows _ []). reflexivity. Qed.

(** Anything else has none. *)
Theorem C24_text_empty : forall j, (forall nid kvs, j = JDict nid kvs -> kvs = []) -> QueryString j = [].
Proof. intros [| | | | | |nid kvs|] H; try reflexivity. rewrite (H _ _ eq_refl). reflexivity. Qed.

Example C24_text_example :
  map row_text (rows (JDict 0 [(B"", JDict 0 [(B"a", JInt 1)]); (B"b", JArray [JNull; JArray []; JString (B"x y")]); (B"c", JDict 0 [])]))
  = [B"a=1"; B"b.0"; B""; B"b.2=x+y"; B""]
  /\ QueryString (JDict 0 [(B"", JDict 0 [(B"a", JInt 1)]); (B"b", JArray [JNull; JArray []; JString (B"x y")]); (B"c", JDict 0 [])]) = B"a=1&b.0&&b.2=x+y&".
Proof. split; [reflexivity|]. rewrite C24_text. reflexivity. Qed.
Example C24_text_empty_example : QueryString (JArray [JInt 1]) = [] /\ QueryString (JString (B"x")) = [] /\ QueryString (JDict 0 []) = [].
Proof. split; [|split]; apply C24_text_empty; intros nid kvs E; try discriminate E; injection E; auto. Qed.
