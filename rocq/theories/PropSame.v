(** Unmarshal depends on the document and the contents of the target alone: C59. *)
From Coq Require Import Lia.
From Verif Require Import Base Strconv SortedMap Json SpecJson Heap Gotypes Marshal Access JErrors Unmarshal SpecUnmarshal UnmFacts UnmFrame SpecSame UnmSame
  PropUnmarshal2 PropConvert2 PropContain.
Open Scope Z_scope.

Lemma F2_diag {A} (P : A -> A -> Prop) l : (forall y, In y l -> P y y) -> Forall2 P l l.
Proof. induction l as [|x l IH]; intros H; constructor; [apply H; left; reflexivity|apply IH; intros; apply H; right; assumption]. Qed.
Lemma like_diag (R : correspondence) c : (forall y, In y (mentions c) -> R y y) -> like R c c.
Proof.
  destruct c as [| | | | |[[? ?]|]| |[?|]| |[?|]| |[[]|]| | |]; cbn [mentions like]; intros H; try reflexivity; try (apply F2_diag, H); try (apply H; left; reflexivity).
  - split; [apply F2_diag, H|reflexivity].
  - apply F2_diag. intros [k y] I. split; [reflexivity|]. apply H, in_map_iff. exists (k, y). split; [reflexivity|exact I].
  - split; [apply H; left; reflexivity|reflexivity].
Qed.

Lemma itself_corresponds m m' a : no_dangling m a -> (forall x, reaches m a x -> nth_error m' x = nth_error m x) -> corresponds (itself m a) m m'.
Proof.
  intros D E. split.
  - intros x y x' y' [<- _] [<- _]. tauto.
  - intros x y [<- Rx]. pose proof (D x Rx) as L. destruct (nth_error m x) as [c|] eqn:Ec; [|apply nth_error_None in Ec; lia].
    exists c, c. split; [reflexivity|]. split; [rewrite E by exact Rx; exact Ec|]. apply like_diag. intros y Iy. split; [reflexivity|]. eapply reach_step; eassumption.
Qed.

Section C59.
Context (env : nat -> list (finfo * gty)) (locate : list (finfo * gty) -> bytes -> list nat).
Context (match_us match_eu : bytes -> bool) (to_bool : bytes -> bool)
  (parse_time : bytes -> option bytes) (time_json : bytes -> option (option bytes)) (std_ok : bytes -> bool).
Notation Unmarshal := (Unmarshal env locate match_us match_eu to_bool parse_time time_json std_ok).

(** Into variables with the same contents, wherever they are and whatever else
    there is, the same document gives the same outcome: the same error, a panic
    in both cases or in neither, and again variables with the same contents. *)
Theorem C59_determined : forall R n m m' t a a' doc keys, corresponds R m m' -> R a a' ->
  same_outcome R (Unmarshal n m t a doc keys) (Unmarshal n m' t a' doc keys).
Proof.
  intros R n m m' t a a' doc keys H Ha. unfold Unmarshal.Unmarshal. destruct (match keys with [] => _ | _ => _ end) as [jo|e]; [|reflexivity].
  pose proof (unm_same env locate match_us match_eu to_bool parse_time time_json std_ok n R {| u_mem := m; u_sess := [] |} {| u_mem := m'; u_sess := [] |} (resolve env t) a a' jo (conj H (fun _ => Logic.I)) Ha) as S.
  destruct (unm _ _ _ _ _ _ _ _ n {| u_mem := m; u_sess := [] |} _ a jo) as [st r| |], (unm _ _ _ _ _ _ _ _ n {| u_mem := m'; u_sess := [] |} _ a' jo) as [st' r'| |]; try contradiction S; try exact Logic.I.
  destruct S as [<- (R' & E & M & _)]. destruct r; [split; [reflexivity|]|]; exists R'; split; assumption.
Qed.

(** In particular for new variables. *)
Theorem C59_new : forall n m m' t doc keys, exists R, R (snd (zalloc (resolve env t) m)) (snd (zalloc (resolve env t) m')) /\
  same_outcome R (Unmarshal n (fst (zalloc (resolve env t) m)) t (snd (zalloc (resolve env t) m)) doc keys)
                 (Unmarshal n (fst (zalloc (resolve env t) m')) t (snd (zalloc (resolve env t) m')) doc keys).
Proof.
  intros n m m' t doc keys. destruct (zalloc_made (resolve env t) (fun _ _ => False) m m') as (R & _ & H & Ha); [split; intros; contradiction|].
  exists R. split; [exact Ha|]. apply C59_determined; assumption.
Qed.

(** Variables that the target does not lead to make no difference. *)
Theorem C59_elsewhere : forall n m m' t a doc keys, no_dangling m a -> (forall x, reaches m a x -> nth_error m' x = nth_error m x) ->
  same_outcome (itself m a) (Unmarshal n m t a doc keys) (Unmarshal n m' t a doc keys).
Proof. intros n m m' t a doc keys D E. apply C59_determined; [apply itself_corresponds; assumption|]. split; [reflexivity|constructor]. Qed.

(** So calls whose targets lead to no common variable do not influence each
    other: the outcome of one is as if the other had not happened. *)
Theorem C59_independent : forall n n' m m1 t a doc keys t' b doc' keys', all_exist m -> (a < length m)%nat -> (b < length m)%nat ->
  (forall x, reaches m b x -> ~ reaches m a x) -> leaves (Unmarshal n m t a doc keys) m1 ->
  same_outcome (itself m b) (Unmarshal n' m t' b doc' keys') (Unmarshal n' m1 t' b doc' keys').
Proof.
  intros n n' m m1 t a doc keys t' b doc' keys' D La Lb N E.
  assert (Db : no_dangling m b) by (intros x; induction 1; [exact Lb|eapply D; eassumption]).
  apply C59_elsewhere; [exact Db|]. intros x Rx.
  apply (C40_touches_only_reachable env locate match_us match_eu to_bool parse_time time_json std_ok n m t a doc keys m1 La D E x (Db x Rx) (N x Rx)).
Qed.
End C59.

(** ** Examples *)

(** The struct {n: 7, s: "x"} in two memories *)
Definition one_place : mem := [VInt 7; VString (B"x"); VStruct [0%nat; 1%nat]].
Definition other_place : mem := [VBool true; VStruct [3%nat; 2%nat]; VString (B"x"); VInt 7].
Definition the_places : correspondence := fun a a' => (a = 0%nat /\ a' = 3%nat) \/ (a = 1%nat /\ a' = 2%nat) \/ (a = 2%nat /\ a' = 1%nat).
Definition the_struct : gty := TStruct 1 (c_env 1).
Definition the_doc : json := JDict 0 [(B"n", JInt 300); (B"s", JInt 5)].
Lemma places_correspond : corresponds the_places one_place other_place.
Proof.
  split.
  - intros a b a' b' [[-> ->]|[[-> ->]|[-> ->]]] [[-> ->]|[[-> ->]|[-> ->]]]; split; congruence.
  - intros a a' [[-> ->]|[[-> ->]|[-> ->]]]; (eexists; eexists; split; [reflexivity|]; split; [reflexivity|]); [reflexivity..|].
    cbn. constructor; [left; split; reflexivity|]. constructor; [right; left; split; reflexivity|]. constructor.
Qed.
Example C59_determined_example : same_outcome the_places (c_unm 3%nat one_place the_struct 2%nat the_doc []) (c_unm 3%nat other_place the_struct 1%nat the_doc [])
  /\ c_unm 3%nat one_place the_struct 2%nat the_doc [] = TopOk [VInt 44; VString (B"5"); VStruct [0%nat; 1%nat]]
  /\ c_unm 3%nat other_place the_struct 1%nat the_doc [] = TopOk [VBool true; VStruct [3%nat; 2%nat]; VString (B"5"); VInt 44].
Proof. split; [|split; reflexivity]. apply C59_determined; [apply places_correspond|right; right; split; reflexivity]. Qed.
(** It has to be one to one: two pointers to one variable are not like pointers
    to two. *)
Definition two_ptrs : gty := TArray 2 (TPtr (TInt (Signed 8))).
Example C59_aliases_refuted :
  c_unm 4%nat [VInt 0; VPtr (Some 0%nat); VPtr (Some 0%nat); VArray [1%nat; 2%nat]] two_ptrs 3%nat (JArray [JInt 1; JInt 2]) []
    = TopOk [VInt 2; VPtr (Some 0%nat); VPtr (Some 0%nat); VArray [1%nat; 2%nat]]
  /\ c_unm 4%nat [VInt 0; VPtr (Some 0%nat); VPtr (Some 4%nat); VArray [1%nat; 2%nat]; VInt 0] two_ptrs 3%nat (JArray [JInt 1; JInt 2]) []
    = TopOk [VInt 1; VPtr (Some 0%nat); VPtr (Some 4%nat); VArray [1%nat; 2%nat]; VInt 2].
Proof. split; reflexivity. Qed.
Example C59_new_example : exists R, R 0%nat 3%nat /\
  same_outcome R (c_unm 4%nat [VMap None] (TMap (TInt (Signed 8))) 0%nat d_dict [])
                 (c_unm 4%nat (one_place ++ [VMap None]) (TMap (TInt (Signed 8))) 3%nat d_dict []).
Proof. apply (c_case C59_new 4%nat [] one_place (TMap (TInt (Signed 8))) d_dict []). Qed.
Definition two_ints : mem := [VInt 7; VPtr (Some 0%nat); VInt 8; VPtr (Some 2%nat)].
Lemma two_reach a x : reaches two_ints a x -> (a = 1%nat -> x = 1%nat \/ x = 0%nat) /\ (a = 3%nat -> x = 3%nat \/ x = 2%nat).
Proof.
  induction 1 as [|x c y _ [I1 I3] E M]; [split; auto|].
  split; intros Ea; [destruct (I1 Ea) as [->| ->]|destruct (I3 Ea) as [->| ->]]; injection E as <-; cbn in M; intuition congruence.
Qed.
Example C59_elsewhere_example : same_outcome (itself two_ints 1%nat) (c_unm 3%nat two_ints (TPtr (TInt (Signed 8))) 1%nat (JString (B"5")) [])
    (c_unm 3%nat [VInt 7; VPtr (Some 0%nat)] (TPtr (TInt (Signed 8))) 1%nat (JString (B"5")) []).
Proof.
  apply C59_elsewhere.
  - intros x Rx. apply two_reach in Rx as [Rx _]. destruct (Rx eq_refl) as [->| ->]; cbn; lia.
  - intros x Rx. apply two_reach in Rx as [Rx _]. destruct (Rx eq_refl) as [->| ->]; reflexivity.
Qed.
Example C59_independent_example : exists m1, leaves (c_unm 3%nat two_ints (TPtr (TInt (Signed 8))) 1%nat (JString (B"5")) []) m1 /\ m1 <> two_ints /\
  same_outcome (itself two_ints 3%nat) (c_unm 3%nat two_ints (TPtr (TInt (Signed 8))) 3%nat (JString (B"x")) []) (c_unm 3%nat m1 (TPtr (TInt (Signed 8))) 3%nat (JString (B"x")) []).
Proof.
  exists [VInt 5; VPtr (Some 0%nat); VInt 8; VPtr (Some 2%nat)]. split; [left; reflexivity|]. split; [discriminate|].
  apply (c_case C59_independent 3%nat 3%nat two_ints [VInt 5; VPtr (Some 0%nat); VInt 8; VPtr (Some 2%nat)] (TPtr (TInt (Signed 8))) 1%nat (JString (B"5")) []).
  - intros x c y E M. do 4 (destruct x as [|x]; [injection E as <-; cbn in M; cbn; intuition lia|]). destruct x; discriminate.
  - cbn; lia.
  - cbn; lia.
  - intros x Rb Ra. apply two_reach in Ra as [Ra _], Rb as [_ Rb]. destruct (Ra eq_refl), (Rb eq_refl); congruence.
  - left. reflexivity.
Qed.
