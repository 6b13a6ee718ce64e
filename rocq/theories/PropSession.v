(** C33: references to nodes, before and after the node. *)
From Verif Require Import Base Strconv SortedMap Json SpecJson Heap Gotypes Access Unmarshal SpecUnmarshal UnmFacts UnmFrame UnmPlain SpecSession UnmHistory PropMarshal PropUnmarshal PropRestore.

Lemma exists_last_or_nil {A} (l : list A) : l = [] \/ exists l' x, l = l' ++ [x].
Proof. destruct l as [|y l] using rev_ind; [left; reflexivity|right; eauto]. Qed.

Fixpoint waiting (n : Z) (h : list uop) : list (addr * gty) :=
  match h with
  | [] => []
  | Refer n' a t :: h' => if n' =? n then (a, t) :: waiting n h' else waiting n h'
  | _ :: h' => waiting n h'
  end.
Lemma last_def_snoc n h op : last_def n (h ++ [op]) = match op with Define n' b tb => if n' =? n then Some (b, tb) else last_def n h | _ => last_def n h end.
Proof.
  induction h as [|x h IH]; cbn.
  - destruct op; try reflexivity. 
  - rewrite IH. destruct op; [destruct (n0 =? n); reflexivity|reflexivity..].
Qed.
Lemma waiting_app n h1 h2 : waiting n (h1 ++ h2) = waiting n h1 ++ waiting n h2.
Proof. induction h1 as [|[]]; cbn; try assumption; [reflexivity|]. destruct (_ =? n); [cbn; f_equal|]; assumption. Qed.

(** What the session knows after a history. *)
Definition known (n : Z) (h : list uop) : option nodeval :=
  match last_def n h, waiting n h with
  | Some x, _ => Some {| nv_value := Some x; nv_targets := [] |}
  | None, [] => None
  | None, l => Some {| nv_value := None; nv_targets := l |}
  end.

Lemma step_known h op st st' : (forall n, find_node (u_sess st) n = known n h) -> step1 st op = Some st' ->
  (forall n, find_node (u_sess st') n = known n (h ++ [op])).
Proof.
  intros K E k. unfold known. rewrite last_def_snoc, waiting_app. destruct op as [n b tb|n a t|a c|gl]; cbn [step1 waiting] in *.
  - unfold save_node_value in E. rewrite app_nil_r.
    assert (E' : find_node (u_sess st') k = if n =? k then Some {| nv_value := Some (b, tb); nv_targets := [] |} else find_node (u_sess st) k).
    { destruct (find_node (u_sess st) n) as [nv|]; [destruct (set_targets _ _ _ _); [|discriminate]|]; injection E as <-; reflexivity. }
    rewrite E', K. unfold known. destruct (n =? k); reflexivity.
  - unfold set_pointer_value in E. rewrite (K n) in E. unfold known in E.
    destruct (last_def n h) as [[b tb]|] eqn:L.
    + destruct (set_pointer _ _ _ _ _); [|discriminate]. injection E as <-. cbn [u_sess with_mem]. rewrite K. unfold known. destruct (Z.eqb_spec n k) as [e|N]; [rewrite <- e, L; reflexivity|rewrite app_nil_r; reflexivity].
    + assert (E' : find_node (u_sess st') k = if n =? k then Some {| nv_value := None; nv_targets := waiting n h ++ [(a, t)] |} else find_node (u_sess st) k).
      { destruct (waiting n h); injection E as <-; reflexivity. }
      rewrite E', K. unfold known. destruct (Z.eqb_spec n k) as [e|N]; [rewrite <- e, L; destruct (waiting n h); reflexivity|rewrite app_nil_r; reflexivity].
  - injection E as <-. cbn. rewrite app_nil_r. apply K.
  - injection E as <-. cbn. rewrite app_nil_r. apply K.
Qed.

Lemma ty_eqb_refl' t : ty_eqb t t = true.
Proof.
  induction t; cbn; try reflexivity; try assumption; try apply Nat.eqb_refl; try apply Z.eqb_refl.
  - destruct k; apply Z.eqb_refl.
  - rewrite Nat.eqb_refl. assumption.
  - destruct k; reflexivity.
  - destruct k; reflexivity.
Qed.
Lemma ty_eqb_same a : forall b, ty_eqb a b = true <-> same_type a b.
Proof.
  intros b. split.
  - revert b. induction a; intros b E; destruct b; cbn in E; try discriminate; try apply same_refl;
      try (constructor; auto; fail).
    + destruct k, k0; cbn in E; try discriminate; apply Z.eqb_eq in E; subst; apply same_refl.
    + apply Z.eqb_eq in E; subst; apply same_refl.
    + apply andb_prop in E as [E1 E2]. apply Nat.eqb_eq in E1. subst. constructor. auto.
    + apply Nat.eqb_eq in E; subst. constructor.
    + apply Nat.eqb_eq in E; subst. constructor.
    + apply Nat.eqb_eq in E; subst. constructor.
    + apply Nat.eqb_eq in E; subst. constructor.
    + destruct k, k0; cbn in E; try discriminate; apply same_refl.
    + destruct k, k0; cbn in E; try discriminate; apply same_refl.
    + apply Nat.eqb_eq in E; subst. constructor.
  - induction 1; cbn; try assumption; try apply Nat.eqb_refl.
    + apply ty_eqb_refl'.
    + rewrite Nat.eqb_refl. assumption.
Qed.

Lemma set_pointer_ok m a t b tb : match set_pointer m a t b tb with Some m' => can_point t tb /\ m' = mwrite m a (pointer_to t b tb) | None => ~ can_point t tb end.
Proof.
  destruct t; cbn; try tauto.
  - destruct (ty_eqb t tb) eqn:E; [split; [apply ty_eqb_same, E|reflexivity]|]. intros S. apply ty_eqb_same in S. congruence.
  - destruct f as [| |n]; try tauto. pose proof (ty_eqb_same (TNamed n) tb) as P.
    cbn in P. destruct tb; cbn; try (intros S; apply P in S; discriminate S); destruct (Nat.eqb n _); try (split; [apply P; reflexivity|reflexivity]); intros S; apply P in S; discriminate S.
Qed.

Lemma set_targets_ok l : forall m b tb, match set_targets m l b tb with
  | Some m' => Datatypes.length m' = Datatypes.length m /\ (forall a t, In (a, t) l -> can_point t tb) /\
      (forall x, ~ In x (map fst l) -> nth_error m' x = nth_error m x) /\
      (NoDup (map fst l) -> forall a t, In (a, t) l -> (a < Datatypes.length m)%nat -> nth_error m' a = Some (pointer_to t b tb))
  | None => exists a t, In (a, t) l /\ ~ can_point t tb
  end.
Proof.
  induction l as [|[a t] l IH]; intros m b tb; cbn [set_targets]; [repeat split; intros; contradiction|].
  pose proof (set_pointer_ok m a t b tb) as P. destruct (set_pointer m a t b tb) as [m1|]; [|exists a, t; split; [left; reflexivity|exact P]].
  destruct P as [P ->]. specialize (IH (mwrite m a (pointer_to t b tb)) b tb). destruct (set_targets _ l b tb) as [m'|]; [|destruct IH as (a' & t' & I & N); exists a', t'; split; [right; exact I|exact N]].
  destruct IH as (L & C & F & T). rewrite mwrite_length in *. split; [exact L|]. split; [|split].
  - intros a' t' [E|I]; [injection E as <- <-; exact P|apply (C a' t' I)].
  - intros x N. cbn in N. rewrite F by tauto. apply mwrite_other. tauto.
  - intros ND a' t' [E|I] La.
    + injection E as <- <-. cbn in ND. inversion ND; subst. rewrite F by assumption. apply mwrite_same, La.
    + cbn in ND. inversion ND; subst. apply T; assumption.
Qed.

Lemma step_length st op st' : step1 st op = Some st' -> (Datatypes.length (u_mem st) <= Datatypes.length (u_mem st'))%nat.
Proof.
  destruct op as [n b tb|n a t|a c|gl]; cbn; intros E.
  - unfold save_node_value in E. destruct (find_node _ n) as [nv|]; [|injection E as <-; reflexivity].
    pose proof (set_targets_ok (nv_targets nv) (u_mem st) b tb) as P. destruct (set_targets _ _ _ _); [|discriminate]. injection E as <-. cbn. destruct P as [-> _]. lia.
  - unfold set_pointer_value in E. destruct (find_node _ n) as [[[[b tb]|] l]|]; [|injection E as <-; reflexivity..].
    pose proof (set_pointer_ok (u_mem st) a t b tb) as P. destruct (set_pointer _ _ _ _ _); [|discriminate]. injection E as <-. destruct P as [_ ->]. cbn. rewrite mwrite_length. lia.
  - injection E as <-. cbn. rewrite mwrite_length. lia.
  - injection E as <-. cbn. rewrite app_length. lia.
Qed.
Lemma steps_length h : forall st st', steps st h = Some st' -> (Datatypes.length (u_mem st) <= Datatypes.length (u_mem st'))%nat.
Proof.
  induction h as [|op h IH]; intros st st' E; cbn in E; [injection E as <-; reflexivity|]. destruct (step1 st op) as [st1|] eqn:E1; [|discriminate].
  pose proof (step_length _ _ _ E1). pose proof (IH _ _ E). lia.
Qed.

Lemma steps_known h m st : steps (start m) h = Some st -> forall n, find_node (u_sess st) n = known n h.
Proof.
  revert st. induction h as [|op h IH] using rev_ind; intros st E; [injection E as <-; reflexivity|].
  rewrite steps_app in E. destruct (steps (start m) h) as [st1|] eqn:E1; [|discriminate]. cbn in E. destruct (step1 st1 op) as [st2|] eqn:E2; [|discriminate]. injection E as <-.
  eapply step_known; [apply IH; reflexivity|exact E2].
Qed.

(** When a step succeeds. *)
Lemma step_succeeds h op st : (forall n, find_node (u_sess st) n = known n h) ->
  (exists st', step1 st op = Some st') <->
  match op with
  | Define n b tb => last_def n h = None -> forall a t, In (a, t) (waiting n h) -> can_point t tb
  | Refer n a t => match last_def n h with Some (b, tb) => can_point t tb | None => True end
  | _ => True
  end.
Proof.
  intros K. destruct op as [n b tb|n a t|a c|gl]; cbn.
  - unfold save_node_value. rewrite K. unfold known. destruct (last_def n h) as [x|] eqn:L; [split; [discriminate|]; intros _; cbn; eauto|].
    destruct (waiting n h) as [|p l] eqn:W; [split; [intros _ _ a t []|eauto]|].
    cbn [nv_targets]. pose proof (set_targets_ok (p :: l) (u_mem st) b tb) as P. destruct (set_targets _ _ _ _); [split; [intros _ _; apply P|eauto]|].
    split; [intros [st' D]; discriminate|]. intros H. destruct P as (a & t & I & N). destruct N. eapply H; [reflexivity|exact I].
  - unfold set_pointer_value. rewrite K. unfold known. destruct (last_def n h) as [[b tb]|] eqn:L; [|destruct (waiting n h); split; eauto].
    pose proof (set_pointer_ok (u_mem st) a t b tb) as P. destruct (set_pointer _ _ _ _ _); [split; [intros _; apply P|eauto]|]. split; [intros [st' D]; discriminate|contradiction].
  - split; eauto.
  - split; eauto.
Qed.

Lemma waiting_in n h a t : In (a, t) (waiting n h) <-> exists h1 h2, h = h1 ++ Refer n a t :: h2.
Proof.
  split.
  - induction h as [|op h IH]; cbn; [intros []|]. intros I.
    assert (G : In (a, t) (waiting n h) -> exists h1 h2, op :: h = h1 ++ Refer n a t :: h2) by (intros I'; destruct (IH I') as (h1 & h2 & ->); exists (op :: h1), h2; reflexivity).
    destruct op as [n' b tb|n' a' t'|a' c|gl]; try apply G, I. destruct (Z.eqb_spec n' n) as [->|N]; [|apply G, I].
    destruct I as [E|I]; [injection E as -> ->; exists [], h; reflexivity|apply G, I].
  - intros (h1 & h2 & ->). rewrite waiting_app. apply in_or_app. right. cbn. rewrite Z.eqb_refl. left. reflexivity.
Qed.

Lemma last_def_app n h1 h2 : last_def n (h1 ++ h2) = match last_def n h2 with Some x => Some x | None => last_def n h1 end.
Proof. induction h1 as [|op h1 IH]; cbn; [destruct (last_def n h2); reflexivity|]. rewrite IH. destruct (last_def n h2); reflexivity. Qed.
Lemma first_last n h : first_def n h = None <-> last_def n h = None.
Proof.
  induction h as [|op h IH]; cbn; [tauto|]. destruct op as [n' b tb|n' a' t'|a' c|gl]; [|destruct (last_def n h); rewrite IH; split; congruence..].
  destruct (n' =? n); [split; [discriminate|destruct (last_def n h); discriminate]|]. destruct (last_def n h); rewrite IH; split; congruence.
Qed.
Lemma first_def_split n h b tb : first_def n h = Some (b, tb) -> exists h1 h2, h = h1 ++ Define n b tb :: h2 /\ first_def n h1 = None.
Proof.
  induction h as [|op h IH]; cbn; [discriminate|].
  assert (G : first_def n [op] = None -> first_def n h = Some (b, tb) -> exists h1 h2, op :: h = h1 ++ Define n b tb :: h2 /\ first_def n h1 = None).
  { intros No F. destruct (IH F) as (h1 & h2 & -> & N). exists (op :: h1), h2. split; [reflexivity|]. cbn in *. destruct op; [destruct (n0 =? n); [discriminate|exact N]|exact N..]. }
  destruct op as [n' b' tb'|n' a' t'|a' c|gl]; try (apply G; reflexivity). cbn in G. destruct (Z.eqb_spec n' n) as [->|N]; [|apply G; reflexivity].
  intros E. injection E as -> ->. exists [], h. split; reflexivity.
Qed.
Lemma first_def_app n h1 h2 : first_def n (h1 ++ h2) = match first_def n h1 with Some x => Some x | None => first_def n h2 end.
Proof. induction h1 as [|[n' b tb|n' a t|a c|gl] h1 IH]; cbn; try assumption; [reflexivity|]. destruct (n' =? n); [reflexivity|exact IH]. Qed.

(** Every history of definitions and references, in any order, goes through
    without a panic exactly if the type of each variable that a reference is
    read into fits the node it means. *)
Theorem C33_no_panic m h : (exists st, steps (start m) h = Some st) <->
  forall before n a t after b tb, h = before ++ Refer n a t :: after -> meant n before after = Some (b, tb) -> can_point t tb.
Proof.
  induction h as [|op h IH] using rev_ind.
  - split; [|cbn; eauto]. intros _ h1 n a t h2 b tb E. destruct h1; discriminate.
  - split.
    + intros [st E]. rewrite steps_app in E. destruct (steps (start m) h) as [st1|] eqn:E1; [|discriminate]. cbn in E. destruct (step1 st1 op) as [st2|] eqn:E2; [|discriminate].
      pose proof (proj1 IH (ex_intro _ st1 eq_refl)) as H. pose proof (proj1 (step_succeeds h op st1 (steps_known h m st1 E1)) (ex_intro _ st2 E2)) as HS.
      intros h1 n a t h2 b tb Eh M. destruct (exists_last_or_nil h2) as [->|(h2' & op' & ->)].
      * apply app_inj_tail in Eh as [-> ->]. unfold meant in M. cbn in HS. destruct (last_def n h1) as [[b' tb']|]; [injection M as -> ->; exact HS|discriminate].
      * rewrite app_comm_cons, app_assoc in Eh. apply app_inj_tail in Eh as [-> ->]. unfold meant in *.
        destruct (last_def n h1) as [[b' tb']|] eqn:L.
        -- eapply (H h1 n a t h2'); [reflexivity|]. rewrite L. exact M.
        -- rewrite first_def_app in M. destruct (first_def n h2') as [[b' tb']|] eqn:F; [eapply (H h1 n a t h2'); [reflexivity|]; rewrite L, F; exact M|].
           destruct op' as [n' b' tb'|n' a' t'|a' c|gl]; cbn in M; try discriminate. destruct (Z.eqb_spec n' n) as [->|N]; [|discriminate]. injection M as -> ->.
           cbn in HS. apply (HS) with (a := a).
           ++ rewrite last_def_app. cbn. apply first_last in F. rewrite F. exact L.
           ++ apply waiting_in. exists h1, h2'. reflexivity.
    + intros H. destruct (proj2 IH) as [st1 E1].
      { intros h1 n a t h2 b tb Eh M. subst h. eapply (H h1 n a t (h2 ++ [op]) b tb); [rewrite <- app_assoc; reflexivity|].
        unfold meant in *. destruct (last_def n h1); [exact M|]. rewrite first_def_app, M. reflexivity. }
      destruct (proj2 (step_succeeds h op st1 (steps_known h m st1 E1))) as [st2 E2]; [|exists st2; rewrite steps_app, E1; cbn; rewrite E2; reflexivity].
      destruct op as [n b tb|n a t|a c|gl]; [| |exact Logic.I|exact Logic.I].
      * intros L a t I. apply waiting_in in I as (h1 & h2 & ->). eapply (H h1 n a t (h2 ++ [Define n b tb]) b tb); [rewrite <- app_assoc; reflexivity|].
        rewrite last_def_app in L. cbn in L. unfold meant. destruct (last_def n h2) eqn:L2; [discriminate|]. rewrite L. rewrite first_def_app.
        apply first_last in L2. rewrite L2. cbn. rewrite Z.eqb_refl. reflexivity.
      * destruct (last_def n h) as [[b tb]|] eqn:L; [|exact Logic.I]. eapply (H h n a t [] b tb); [reflexivity|]. unfold meant. rewrite L. reflexivity.
Qed.

Lemma set_targets_at l : forall m b tb m' a t, set_targets m l b tb = Some m' -> In (a, t) l -> (forall t', In (a, t') l -> t' = t) ->
  (a < Datatypes.length m)%nat -> nth_error m' a = Some (pointer_to t b tb).
Proof.
  induction l as [|[x tx] l IH]; intros m b tb m' a t E I U La; [destruct I|]. cbn [set_targets] in E.
  pose proof (set_pointer_ok m x tx b tb) as P. destruct (set_pointer m x tx b tb) as [m1|]; [|discriminate]. destruct P as [P ->].
  destruct (in_dec Nat.eq_dec a (map fst l)) as [J|J].
  - apply in_map_iff in J as ([a' t'] & <- & J). cbn [fst] in *. rewrite (U t' (or_intror J)) in J.
    eapply IH; [exact E|exact J|intros t2 J2; apply U; right; exact J2|rewrite mwrite_length; exact La].
  - destruct I as [I|I]; [|exfalso; apply J; apply in_map_iff; exists (a, t); split; [reflexivity|exact I]]. injection I as -> ->.
    pose proof (set_targets_ok l (mwrite m a (pointer_to t b tb)) b tb) as Q. rewrite E in Q. destruct Q as (_ & _ & F & _). rewrite F by exact J. apply mwrite_same, La.
Qed.

(** What one more step does to a variable. *)
Lemma step_keeps h op m st st' a : steps (start m) h = Some st -> step1 st op = Some st' -> (a < Datatypes.length (u_mem st))%nat -> ~ In a (touched op) ->
  match op with Define n _ _ => last_def n h = None -> ~ In a (map fst (waiting n h)) | _ => True end ->
  nth_error (u_mem st') a = nth_error (u_mem st) a.
Proof.
  intros H E La N W. pose proof (steps_known h m st H) as Kn. destruct op as [n b tb|n x t|x c|gl]; cbn [step1 touched] in *.
  - unfold save_node_value in E. rewrite (Kn n) in E. unfold known in E. destruct (last_def n h) as [y|]; cbn [nv_targets set_targets] in E; [injection E as <-; reflexivity|].
    specialize (W eq_refl). destruct (waiting n h) as [|p l]; [injection E as <-; reflexivity|]. cbn [nv_targets] in E.
    pose proof (set_targets_ok (p :: l) (u_mem st) b tb) as P. destruct (set_targets (u_mem st) (p :: l) b tb) as [m'|]; [|discriminate]. injection E as <-. apply P. exact W.
  - unfold set_pointer_value in E. rewrite (Kn n) in E. unfold known in E. destruct (last_def n h) as [[b tb]|].
    + pose proof (set_pointer_ok (u_mem st) x t b tb) as P. destruct (set_pointer (u_mem st) x t b tb) as [m'|]; [|discriminate]. injection E as <-. destruct P as [_ ->]. apply mwrite_other. intros ->. apply N. left. reflexivity.
    + destruct (waiting n h); injection E as <-; reflexivity.
  - injection E as <-. apply mwrite_other. intros ->. apply N. left. reflexivity.
  - injection E as <-. cbn. apply nth_error_app1, La.
Qed.

Lemma waiting_touched n h a : In a (map fst (waiting n h)) -> exists op, In op h /\ In a (touched op).
Proof.
  intros I. apply in_map_iff in I as ([a' t] & <- & I). apply waiting_in in I as (h1 & h2 & ->). exists (Refer n a' t). split; [apply in_or_app; right; left; reflexivity|left; reflexivity].
Qed.

(** A variable that no reference is read into and that nothing else is
    written to keeps its value, whatever is defined and referred to. *)
Theorem C33_others_keep m h st a : steps (start m) h = Some st -> (a < Datatypes.length m)%nat -> (forall op, In op h -> ~ In a (touched op)) ->
  nth_error (u_mem st) a = nth_error m a.
Proof.
  revert st. induction h as [|op h IH] using rev_ind; intros st E La N; [injection E as <-; reflexivity|].
  rewrite steps_app in E. destruct (steps (start m) h) as [st1|] eqn:E1; [|discriminate]. cbn in E. destruct (step1 st1 op) as [st2|] eqn:E2; [|discriminate]. injection E as <-.
  rewrite <- (IH st1 eq_refl La) by (intros o I; apply N; apply in_or_app; left; exact I).
  eapply step_keeps; [exact E1|exact E2|pose proof (steps_length _ _ _ E1); cbn in *; lia|apply N, in_or_app; right; left; reflexivity|].
  destruct op; try exact Logic.I. intros _ I. apply waiting_touched in I as (o & I1 & I2). apply (N o); [apply in_or_app; left; exact I1|exact I2].
Qed.

(** A variable that one reference is read into, and nothing else, ends up with
    the pointer to the node that the reference means - the last definition of
    its number before it, or else the first one after it - and keeps its value
    if there is none. *)
Theorem C33_targets_hold_node m before n a t after st : steps (start m) (before ++ Refer n a t :: after) = Some st -> (a < Datatypes.length m)%nat ->
  (forall op, In op (before ++ after) -> ~ In a (touched op)) ->
  nth_error (u_mem st) a = match meant n before after with Some (b, tb) => Some (pointer_to t b tb) | None => nth_error m a end.
Proof.
  revert st. induction after as [|op after IH] using rev_ind; intros st E La N.
  - rewrite steps_app in E. destruct (steps (start m) before) as [st1|] eqn:E1; [|discriminate]. cbn [steps] in E. destruct (step1 st1 (Refer n a t)) as [st2|] eqn:E2; [|discriminate]. injection E as <-.
    assert (Keep : nth_error (u_mem st1) a = nth_error m a) by (eapply C33_others_keep; [exact E1|exact La|intros o I; apply N; apply in_or_app; left; exact I]).
    assert (La1 : (a < Datatypes.length (u_mem st1))%nat) by (pose proof (steps_length _ _ _ E1); cbn in *; lia).
    cbn [step1] in E2. unfold set_pointer_value in E2. rewrite (steps_known _ _ _ E1 n) in E2. unfold known in E2. unfold meant. cbn [first_def].
    destruct (last_def n before) as [[b tb]|].
    + pose proof (set_pointer_ok (u_mem st1) a t b tb) as P. destruct (set_pointer (u_mem st1) a t b tb) as [m'|]; [|discriminate]. injection E2 as <-. destruct P as [_ ->]. apply mwrite_same, La1.
    + destruct (waiting n before); injection E2 as <-; exact Keep.
  - rewrite app_comm_cons, app_assoc, steps_app in E. set (h := before ++ Refer n a t :: after) in *.
    destruct (steps (start m) h) as [st1|] eqn:E1; [|discriminate]. cbn [steps] in E. destruct (step1 st1 op) as [st2|] eqn:E2; [|discriminate]. injection E as <-.
    assert (N1 : forall o, In o (before ++ after) -> ~ In a (touched o)) by (intros o I; apply N; rewrite app_assoc; apply in_or_app; left; exact I).
    assert (N2 : ~ In a (touched op)) by (apply N; rewrite app_assoc; apply in_or_app; right; left; reflexivity).
    specialize (IH st1 eq_refl La N1).
    assert (La1 : (a < Datatypes.length (u_mem st1))%nat) by (pose proof (steps_length _ _ _ E1); cbn in *; lia).
    assert (U : forall n' t', In (a, t') (waiting n' h) -> n' = n /\ t' = t).
    { intros n' t' I. apply waiting_in in I as (h1 & h2 & Eh). unfold h in Eh.
      assert (J : In (Refer n' a t') (before ++ Refer n a t :: after)) by (rewrite Eh; apply in_or_app; right; left; reflexivity).
      apply in_app_or in J as [J|[J|J]].
      - exfalso. apply (N1 (Refer n' a t')); [apply in_or_app; left; exact J|left; reflexivity].
      - injection J as -> ->. split; reflexivity.
      - exfalso. apply (N1 (Refer n' a t')); [apply in_or_app; right; exact J|left; reflexivity]. }
    assert (Same : meant n before (after ++ [op]) = meant n before after -> (match op with Define n' _ _ => last_def n' h = None -> n' <> n | _ => True end) ->
       nth_error (u_mem st2) a = match meant n before (after ++ [op]) with Some (b, tb) => Some (pointer_to t b tb) | None => nth_error m a end).
    { intros M D. rewrite M, <- IH. eapply step_keeps; [exact E1|exact E2|exact La1|exact N2|]. destruct op as [n' b tb|n' x t'|x c|gl]; try exact Logic.I.
      intros L I. apply in_map_iff in I as ([a' t'] & <- & I). apply U in I as [-> _]. apply (D L). reflexivity. }
    assert (M0 : meant n before (after ++ [op]) = match last_def n before with Some x => Some x | None => match first_def n after with Some x => Some x | None => first_def n [op] end end)
      by (unfold meant; rewrite first_def_app; reflexivity).
    destruct op as [n' b tb|n' x t'|x c|gl].
    2-4: apply Same; [rewrite M0; unfold meant; cbn; destruct (last_def n before), (first_def n after); reflexivity|exact Logic.I].
    destruct (Z.eq_dec n' n) as [->|Nn]; [|apply Same; [|intros _; exact Nn]; rewrite M0; unfold meant; cbn; destruct (Z.eqb_spec n' n); [contradiction|]; destruct (last_def n before), (first_def n after); reflexivity].
    destruct (last_def n h) as [y|] eqn:L.
    + apply Same; [|intros D; discriminate]. rewrite M0. unfold meant. destruct (last_def n before) eqn:Lb; [reflexivity|]. destruct (first_def n after) eqn:Fa; [reflexivity|].
      exfalso. apply first_last in Fa. unfold h in L. rewrite last_def_app in L. cbn in L. rewrite Fa in L. congruence.
    + assert (Lb : last_def n before = None /\ first_def n after = None).
      { unfold h in L. rewrite last_def_app in L. cbn in L. destruct (last_def n after) eqn:La'; [discriminate|]. split; [exact L|apply first_last; exact La']. }
      destruct Lb as [Lb Fa]. rewrite M0, Lb, Fa. cbn. rewrite Z.eqb_refl.
      cbn [step1] in E2. unfold save_node_value in E2. rewrite (steps_known _ _ _ E1 n) in E2. unfold known in E2. rewrite L in E2.
      assert (I : In (a, t) (waiting n h)) by (apply waiting_in; exists before, after; reflexivity).
      destruct (waiting n h) as [|p l] eqn:Wn; [destruct I|]. cbn [nv_targets] in E2. destruct (set_targets (u_mem st1) (p :: l) b tb) as [m'|] eqn:Et; [|discriminate]. injection E2 as <-.
      eapply set_targets_at; [exact Et|exact I| |exact La1]. intros t' I'. rewrite <- Wn in I'. apply (U n t' I').
Qed.

Lemma last_def_in n h b tb : last_def n h = Some (b, tb) -> In (Define n b tb) h.
Proof.
  induction h as [|op h IH]; cbn; [discriminate|]. destruct (last_def n h) as [x|]; [intros D; right; apply IH, D|].
  destruct op as [n' b' tb'|n' a' t'|a' c|gl]; try discriminate. destruct (Z.eqb_spec n' n) as [->|]; [|discriminate]. intros D. injection D as -> ->. left. reflexivity.
Qed.
Lemma last_def_none n h : last_def n h = None <-> forall b tb, ~ In (Define n b tb) h.
Proof.
  split.
  - induction h as [|op h IH]; cbn; [intros _ b tb []|]. destruct (last_def n h); [discriminate|]. intros E b tb [->|I]; [rewrite Z.eqb_refl in E; discriminate|exact (IH eq_refl b tb I)].
  - intros N. destruct (last_def n h) as [[b tb]|] eqn:E; [|reflexivity]. apply last_def_in in E. destruct (N b tb E).
Qed.
Lemma meant_in n h1 h2 b tb : meant n h1 h2 = Some (b, tb) -> In (Define n b tb) (h1 ++ h2).
Proof.
  unfold meant. destruct (last_def n h1) as [y|] eqn:L; intros E; apply in_or_app.
  - left. apply last_def_in. congruence.
  - right. apply first_def_split in E as (x & y & -> & _). apply in_or_app. right. left. reflexivity.
Qed.
Lemma meant_none n h1 h2 : meant n h1 h2 = None <-> forall b tb, ~ In (Define n b tb) (h1 ++ h2).
Proof.
  unfold meant. split.
  - destruct (last_def n h1) eqn:L; [discriminate|]. intros F b tb I. apply first_last in F. apply in_app_or in I as [I|I]; [exact (proj1 (last_def_none n h1) L b tb I)|exact (proj1 (last_def_none n h2) F b tb I)].
  - intros N. rewrite (proj2 (last_def_none n h1)) by (intros b tb I; apply (N b tb), in_or_app; left; exact I).
    apply first_last, last_def_none. intros b tb I. apply (N b tb), in_or_app. right. exact I.
Qed.

(** A node that is defined once, in variable [b]: whether that comes before or
    after the reference makes no difference. *)
Theorem C33_any_order m h st before n a t after b tb : steps (start m) h = Some st -> h = before ++ Refer n a t :: after -> (a < Datatypes.length m)%nat ->
  (forall op, In op (before ++ after) -> ~ In a (touched op)) ->
  In (Define n b tb) h -> (forall b' tb', In (Define n b' tb') h -> b' = b /\ tb' = tb) ->
  nth_error (u_mem st) a = Some (pointer_to t b tb).
Proof.
  intros E -> La N I U. rewrite (C33_targets_hold_node m before n a t after st E La N).
  assert (I' : In (Define n b tb) (before ++ after)) by (apply in_app_or in I as [I|[I|I]]; [apply in_or_app; left; exact I|discriminate|apply in_or_app; right; exact I]).
  destruct (meant n before after) as [[b' tb']|] eqn:M.
  - apply meant_in in M. destruct (U b' tb') as [-> ->]; [|reflexivity]. apply in_app_or in M as [M|M]; apply in_or_app; [left; exact M|right; right; exact M].
  - exfalso. exact (proj1 (meant_none n before after) M b tb I').
Qed.

Section Flat.
Context (env : nat -> list (finfo * gty)) (locate : list (finfo * gty) -> bytes -> list nat).
Context (match_us match_eu : bytes -> bool) (to_bool : bytes -> bool)
  (parse_time : bytes -> option bytes) (time_json : bytes -> option (option bytes)) (std_ok : bytes -> bool).
Notation Unmarshal := (Unmarshal env locate match_us match_eu to_bool parse_time time_json std_ok).
Notation unm := (unm env locate match_us match_eu to_bool parse_time time_json std_ok).

(** Every unmarshalling is a history whose definitions are nodes of the
    document and whose references are references of the document. *)
Theorem C33_unmarshal_is_history : forall fuel m t a j keys m',
  Unmarshal fuel m t a j keys = TopOk m' \/ (exists e, Unmarshal fuel m t a j keys = TopErr m' e) ->
  exists doc h st, (match keys with [] => ROk (receiver j) | _ => Get (receiver j) keys end) = ROk doc /\
    steps (start m) h = Some st /\ u_mem st = m' /\ Forall (marked_in doc) h.
Proof.
  intros fuel m t a j keys m' R. unfold Unmarshal.Unmarshal in R. destruct (match keys with [] => _ | _ => _ end) as [doc|e]; [|destruct R as [R|[e' R]]; discriminate].
  pose proof (UnmHistory.unm_framed env locate match_us match_eu to_bool parse_time time_json std_ok doc fuel (start m) (resolve env t) a doc (sub_refl _)) as F.
  unfold start in F. destruct (unm fuel _ (resolve env t) a doc) as [st e| |]; [|destruct R as [R|[e' R]]; discriminate..].
  destruct F as (h & E & F). exists doc, h, st. split; [reflexivity|]. split; [exact E|]. split; [|exact F]. destruct e; destruct R as [R|[e' R]]; try discriminate; injection R as <-; reflexivity.
Qed.

(** ** References between the fields of a struct *)

Section Struct.
Context (fs : list (finfo * gty)) (l : list addr) (keep : addr -> bool) (L : nat).
Notation field := (field_of locate fs l).
(** The marks of the members, in turn. *)
Inductive reads : list (bytes * json) -> list uop -> Prop :=
| reads_nil : reads [] []
| reads_ref k n kvs a t h : field k a t -> keep a = true -> (a < L)%nat -> reads kvs h -> reads ((k, JPtr n) :: kvs) (Refer n a t :: h)
| reads_node k n ms kvs a t h : field k a t -> keep a = false -> 0 < n -> by_value t -> (forall k x, In (k, x) ms -> no_marks x) -> reads kvs h ->
    reads ((k, JDict n ms) :: kvs) (Define n a t :: h)
| reads_other k j kvs a t h : field k a t -> keep a = false -> no_marks j -> reads kvs h -> reads ((k, j) :: kvs) h.

Notation closed := (closed (fun x => keep x = false) L).
Notation inn := (inn (fun x => keep x = false) L).
Definition kept (p : addr * gty) : Prop := keep (fst p) = true /\ (fst p < L)%nat.
Definition inv (st : ustate) : Prop := closed (u_mem st) /\ forall n nv, find_node (u_sess st) n = Some nv -> Forall kept (nv_targets nv).
Definition marks (h : list uop) : list uop := filter (fun op => match op with Define _ _ _ | Refer _ _ _ => true | _ => false end) h.
Definition quiet_stores (h : list uop) : Prop := forall x c, In (Store x c) h -> keep x = true -> (L <= x)%nat.

Lemma write_out m a c : closed m -> keep a = true -> (a < L)%nat -> closed (mwrite m a c).
Proof.
  intros [HL H] Ka La. split; [rewrite mwrite_length; exact HL|]. intros x d y Ix Ex Iy. rewrite mwrite_other in Ex; [eapply H; eassumption|].
  intros <-. destruct Ix as [Ix|Ix]; [congruence|lia].
Qed.

Lemma targets_out ts : Forall kept ts -> forall m b tb m', closed m -> set_targets m ts b tb = Some m' -> closed m'.
Proof.
  induction ts as [|[a t] ts IH]; intros F m b tb m' H E; [injection E as <-; exact H|]. inversion F as [|? ? [Ka La] F']; subst. cbn [set_targets] in E.
  pose proof (set_pointer_ok m a t b tb) as P. destruct (set_pointer m a t b tb) as [m1|]; [|discriminate]. destruct P as [_ ->]. eapply IH; [exact F'| |exact E]. apply write_out; assumption.
Qed.

Lemma put_kept s n nv : (forall k v, find_node s k = Some v -> Forall kept (nv_targets v)) -> Forall kept (nv_targets nv) ->
  forall k v, find_node (put_node s n nv) k = Some v -> Forall kept (nv_targets v).
Proof. intros H Hn k v. unfold put_node. cbn. destruct (n =? k); [intros D; injection D as <-; exact Hn|apply H]. Qed.

Lemma mark_inv op st st' : match op with Define _ _ _ => True | Refer _ a t => kept (a, t) | _ => False end -> inv st -> step1 st op = Some st' -> inv st'.
Proof.
  intros Ho [H Q] E. destruct op as [n b tb|n a t|a c|gl]; try destruct Ho; cbn [step1] in E.
  - unfold save_node_value in E. destruct (find_node (u_sess st) n) as [nv|] eqn:F.
    + destruct (set_targets (u_mem st) (nv_targets nv) b tb) as [m'|] eqn:Et; [|discriminate]. injection E as <-.
      split; [eapply targets_out; [apply (Q n nv F)|exact H|exact Et]|apply put_kept; [exact Q|constructor]].
    + injection E as <-. split; [exact H|apply put_kept; [exact Q|constructor]].
  - rename H0 into Ka, H1 into La. unfold set_pointer_value in E. destruct (find_node (u_sess st) n) as [[[[b tb]|] ts]|] eqn:F.
    + pose proof (set_pointer_ok (u_mem st) a t b tb) as P. destruct (set_pointer (u_mem st) a t b tb) as [m'|]; [|discriminate]. injection E as <-. destruct P as [_ ->].
      split; [apply write_out; assumption|exact Q].
    + injection E as <-. split; [exact H|]. apply put_kept; [exact Q|]. cbn. apply Forall_app. split; [exact (Q n _ F)|constructor; [split; assumption|constructor]].
    + injection E as <-. split; [exact H|]. apply put_kept; [exact Q|]. constructor; [split; assumption|constructor].
Qed.

(** Reading a value without marks. *)
Lemma plain_hist k st t b j st' e : inv st -> keep b = false -> no_marks j -> unm k st t b j = UOk st' e ->
  inv st' /\ exists h, steps st h = Some st' /\ marks h = [] /\ quiet_stores h.
Proof.
  intros [H Q] Kb Pj E.
  pose proof (unm_plain_same env locate match_us match_eu to_bool parse_time time_json std_ok (u_sess st) [] k j Pj st (start (u_mem st)) t b) as S1.
  rewrite E in S1. specialize (S1 (conj eq_refl (conj eq_refl eq_refl))). destruct (unm k (start (u_mem st)) t b j) as [st2 e2| |] eqn:E2; try destruct S1. destruct H0 as (Em & Es & _). 
  pose proof (UnmFrame.unm_framed env locate match_us match_eu to_bool parse_time time_json std_ok (fun x => keep x = false) L k (start (u_mem st)) t b j) as F. rewrite E2 in F.
  destruct F as [[C _] S2]; [split; [exact H|intros n nv D; discriminate D]|left; exact Kb|]. rewrite <- Em in C, S2.
  split; [split; [exact C|rewrite Es; exact Q]|].
  destruct (realise (u_mem st) (u_mem st') (fun x => keep x && (x <? L)%nat)) as (h & Eh & Ho).
  - pose proof (UnmHistory.unm_framed env locate match_us match_eu to_bool parse_time time_json std_ok j k st t b j (sub_refl _)) as G. rewrite E in G.
    destruct G as (h & G & _). eapply steps_length, G.
  - intros x _ Kx. apply andb_prop in Kx as [Kx Lx]. apply Nat.ltb_lt in Lx. apply S2; [exact Lx|congruence].
  - exists h. split; [|split].
    + destruct st as [m s], st' as [m' s']. cbn in *. subst s'. apply Eh.
    + unfold marks. clear - Ho. induction h as [|op h IH]; [reflexivity|]. pose proof (Ho op (or_introl eq_refl)) as O1. cbn. destruct op; try destruct O1; (apply IH; intros o I; apply Ho; right; exact I).
    + intros x c I Kx. specialize (Ho _ I). cbn in Ho. rewrite Kx in Ho. cbn in Ho. destruct Ho as [Ho|Ho]; [apply Nat.ltb_ge in Ho; exact Ho|]. destruct H as [HL _]. lia.
Qed.

Lemma marks_app h1 h2 : marks (h1 ++ h2) = marks h1 ++ marks h2.
Proof. apply filter_app. Qed.
Lemma stores_app h1 h2 : quiet_stores h1 -> quiet_stores h2 -> quiet_stores (h1 ++ h2).
Proof. intros Q1 Q2 x c I. apply in_app_or in I as [I|I]; [eapply Q1; exact I|eapply Q2; exact I]. Qed.

Lemma no_marks_dict ms : (forall k x, In (k, x) ms -> no_marks x) -> no_marks (JDict 0 ms).
Proof.
  intros H. split.
  - intros n Sb. inversion Sb; subst. destruct (H k v) as [N _]; [assumption|]. eapply N; eassumption.
  - intros n kvs Sb. inversion Sb; subst; [lia|]. destruct (H k v) as [_ N]; [assumption|]. eapply N; eassumption.
Qed.

Lemma node_run k st t b n ms : 0 < n -> by_value t ->
  unm (Datatypes.S k) st t b (JDict n ms) = ubind (save_node_value st n b t) (fun st1 _ => unm (Datatypes.S k) st1 t b (JDict 0 ms)).
Proof.
  intros Hn Bt. cbn [Unmarshal.unm]. rewrite (proj2 (Z.ltb_lt 0 n) Hn). change (0 <? 0) with false. cbn [ubind].
  destruct (save_node_value st n b t) as [st1 []| |]; try reflexivity. cbn [ubind]. destruct t; try destruct Bt; reflexivity.
Qed.

Lemma set_field_one un st key i f t a j : locate fs key = [i] -> nth_error fs i = Some (f, t) -> fi_deprecated_by f = None -> nth_error l i = Some a ->
  set_field locate un (Datatypes.S (Datatypes.S (Datatypes.length fs))) st [] fs l key j = ubind (un st t a j) (fun st1 e => UOk st1 ([key], e)).
Proof.
  intros E1 E2 E3 E4. cbn [set_field in_strings existsb]. rewrite E1, E2, E4, E3. destruct (un st t a j) as [st1 [e|]| |]; reflexivity.
Qed.

Lemma members_hist k kvs h0 : reads kvs h0 -> forall st errs st' e, inv st -> un_fields locate (unm k) st fs l kvs errs = UOk st' e ->
  exists h, steps st h = Some st' /\ marks h = h0 /\ quiet_stores h.
Proof.
  induction 1 as [|key n kvs a t h0 Hf Ka La _ IH|key n ms kvs a t h0 Hf Ka Hn Bt Hm _ IH|key j kvs a t h0 Hf Ka Pj _ IH]; intros st errs st' e HI E.
  - injection E as <- <-. exists []. split; [reflexivity|]. split; [reflexivity|intros x c []].
  - destruct Hf as (i & f & E1 & E2 & E3 & E4). cbn [un_fields] in E. rewrite (set_field_one (unm k) st key i f t a (JPtr n) E1 E2 E3 E4) in E.
    destruct k as [|k]; [discriminate|]. change (unm (Datatypes.S k) st t a (JPtr n)) with (set_pointer_value st n a t) in E.
    destruct (set_pointer_value st n a t) as [st1 e1| |] eqn:Es; try discriminate. cbn [ubind] in E.
    assert (S1 : step1 st (Refer n a t) = Some st1) by (cbn; rewrite Es; reflexivity).
    destruct (IH _ _ _ _ (mark_inv (Refer n a t) st st1 (conj Ka La) HI S1) E) as (h & Eh & Mh & Qh). exists (Refer n a t :: h). cbn [steps]. rewrite S1. split; [exact Eh|]. split; [cbn; f_equal; exact Mh|].
    intros x c [D|I]; [discriminate|]. eapply Qh. exact I.
  - destruct Hf as (i & f & E1 & E2 & E3 & E4). cbn [un_fields] in E. rewrite (set_field_one (unm k) st key i f t a (JDict n ms) E1 E2 E3 E4) in E.
    destruct k as [|k]; [discriminate|]. rewrite (node_run k st t a n ms Hn Bt) in E.
    destruct (save_node_value st n a t) as [st1 u| |] eqn:Es; try discriminate. cbn [ubind] in E.
    assert (S1 : step1 st (Define n a t) = Some st1) by (cbn; rewrite Es; reflexivity).
    pose proof (mark_inv (Define n a t) st st1 Logic.I HI S1) as HI1.
    destruct (unm (Datatypes.S k) st1 t a (JDict 0 ms)) as [st2 e2| |] eqn:E5; try discriminate. cbn [ubind snd] in E.
    destruct (plain_hist _ _ _ _ _ _ _ HI1 Ka (no_marks_dict ms Hm) E5) as (HI2 & h1 & Eh1 & Mh1 & Qh1).
    destruct (IH _ _ _ _ HI2 E) as (h & Eh & Mh & Qh). exists (Define n a t :: h1 ++ h). cbn [steps]. rewrite S1, steps_app, Eh1. split; [exact Eh|].
    split; [change (Define n a t :: marks (h1 ++ h) = Define n a t :: h0); rewrite marks_app, Mh1, Mh; reflexivity|].
    intros x c [D|I]; [discriminate|]. eapply stores_app; [exact Qh1|exact Qh|exact I].
  - destruct Hf as (i & f & E1 & E2 & E3 & E4). cbn [un_fields] in E. rewrite (set_field_one (unm k) st key i f t a j E1 E2 E3 E4) in E.
    destruct (unm k st t a j) as [st2 e2| |] eqn:E5; try discriminate. cbn [ubind snd] in E.
    destruct (plain_hist _ _ _ _ _ _ _ HI Ka Pj E5) as (HI2 & h1 & Eh1 & Mh1 & Qh1).
    destruct (IH _ _ _ _ HI2 E) as (h & Eh & Mh & Qh). exists (h1 ++ h). rewrite steps_app, Eh1. split; [exact Eh|].
    split; [rewrite marks_app, Mh1, Mh; reflexivity|apply stores_app; assumption].
Qed.
End Struct.

Definition is_ref (j : json) : bool := match j with JPtr _ => true | _ => false end.

(** A dict whose members are references, nodes and other values, in any order,
    read into a struct: whether or not there are errors, each field that a
    reference is read into ends up pointing to the field that its node is read
    into, or keeps its value if no member is that node. *)
Theorem C33_struct_fields : forall fuel m nm fs a l nid kvs m',
  nth_error m a = Some (VStruct l) -> (a < Datatypes.length m)%nat -> ~ In a l ->
  (* nothing but the struct leads to its fields *)
  (forall x c y, nth_error m x = Some c -> In y (mentions c) -> (y < Datatypes.length m)%nat /\ y <> a /\ (x <> a -> ~ In y l)) ->
  (* each member has a field of its own *)
  nid <= 0 -> NoDup (map fst kvs) ->
  (forall k j, In (k, j) kvs -> exists b t, field_of locate fs l k b t /\ flat_member t j) ->
  (forall k k' b t t', In k (map fst kvs) -> In k' (map fst kvs) -> field_of locate fs l k b t -> field_of locate fs l k' b t' -> k = k') ->
  Unmarshal fuel m (TStruct nm fs) a (JDict nid kvs) [] = TopOk m' \/ (exists e, Unmarshal fuel m (TStruct nm fs) a (JDict nid kvs) [] = TopErr m' e) ->
  forall k n x t, In (k, JPtr n) kvs -> field_of locate fs l k x t ->
    (forall k' ms b tb, In (k', JDict n ms) kvs -> 0 < n -> field_of locate fs l k' b tb ->
       (forall k'' ms', In (k'', JDict n ms') kvs -> k'' = k') ->
       nth_error m' x = Some (pointer_to t b tb)) /\
    ((n <= 0 \/ forall k' ms, ~ In (k', JDict n ms) kvs) -> nth_error m' x = nth_error m x).
Proof.
  intros fuel m nm fs a l nid kvs m' Ea La Nal Hm Hnid NDk Hkvs Hinj R key n x t Ik Fx.
  assert (KeyIn : forall k j, In (k, j) kvs -> In k (map fst kvs)) by (intros k j I; apply in_map_iff; exists (k, j); split; [reflexivity|exact I]).
  set (refs := flat_map (fun kv => if is_ref (snd kv) then match locate fs (fst kv) with [i] => match nth_error l i with Some b => [b] | None => [] end | _ => [] end else []) kvs).
  set (keep := fun y => if in_dec Nat.eq_dec y (a :: refs) then true else false).
  assert (RefsIn : forall y, In y refs <-> exists k n t, In (k, JPtr n) kvs /\ field_of locate fs l k y t).
  { intros y. unfold refs. rewrite in_flat_map. split.
    - intros ([k j] & I & J). cbn [fst snd] in J. destruct j; try destruct J. cbn [is_ref] in J. destruct (Hkvs k (JPtr nid0) I) as (b & tb & Fb & _).
      exists k, nid0. destruct Fb as (i & f & E1 & E2 & E3 & E4). rewrite E1, E4 in J. destruct J as [<-|[]]. exists tb. split; [exact I|]. exists i, f. repeat split; assumption.
    - intros (k & n' & t' & I & (i & f & E1 & E2 & E3 & E4)). exists (k, JPtr n'). split; [exact I|]. cbn [fst snd is_ref]. rewrite E1, E4. left. reflexivity. }
  assert (FieldIn : forall k b tb, field_of locate fs l k b tb -> In b l) by (intros k b tb (i & f & _ & _ & _ & E4); eapply nth_error_In, E4).
  assert (FieldFun : forall k b tb b' tb', field_of locate fs l k b tb -> field_of locate fs l k b' tb' -> b = b' /\ tb = tb').
  { intros k b tb b' tb' (i & f & E1 & E2 & _ & E4) (i' & f' & E1' & E2' & _ & E4'). rewrite E1 in E1'. injection E1' as <-. rewrite E2 in E2'. injection E2' as _ ->. rewrite E4 in E4'. injection E4' as ->. split; reflexivity. }
  assert (RefsL : forall y, In y refs -> In y l /\ (y < Datatypes.length m)%nat).
  { intros y I. apply RefsIn in I as (k & n' & t' & _ & F'). pose proof (FieldIn _ _ _ F') as J. split; [exact J|]. eapply Hm; [exact Ea|exact J]. }
  assert (KeyFun : forall k j j', In (k, j) kvs -> In (k, j') kvs -> j = j').
  { clear - NDk. induction kvs as [|[k0 j0] kvs IH]; intros k j j' I I'; [destruct I|]. cbn in NDk. inversion NDk as [|? ? Nk ND]; subst.
    destruct I as [I|I], I' as [I'|I'].
    - congruence.
    - injection I as -> ->. exfalso. apply Nk. apply in_map_iff. exists (k, j'). split; [reflexivity|exact I'].
    - injection I' as -> ->. exfalso. apply Nk. apply in_map_iff. exists (k, j). split; [reflexivity|exact I].
    - eapply IH; eassumption. }
  assert (KeepRef : forall y, In y refs -> keep y = true) by (intros y I; unfold keep; destruct (in_dec Nat.eq_dec y (a :: refs)) as [_|N]; [reflexivity|destruct N; right; exact I]).
  assert (KeepOther : forall k j b tb, In (k, j) kvs -> field_of locate fs l k b tb -> is_ref j = false -> keep b = false).
  { intros k j b tb I Fb Rj. unfold keep. destruct (in_dec Nat.eq_dec b (a :: refs)) as [[->|J]|_]; [destruct (Nal (FieldIn _ _ _ Fb))| |reflexivity].
    apply RefsIn in J as (k' & n' & t' & I' & F'). rewrite (Hinj _ _ _ _ _ (KeyIn _ _ I) (KeyIn _ _ I') Fb F') in I. rewrite (KeyFun _ _ _ I I') in Rj. discriminate. }
  (* the history of the members *)
  assert (HR : exists h0, reads fs l keep (Datatypes.length m) kvs h0 /\
     (forall op, In op h0 -> match op with
        | Refer n' y t' => exists k', In (k', JPtr n') kvs /\ field_of locate fs l k' y t'
        | Define n' b tb => exists k' ms, In (k', JDict n' ms) kvs /\ 0 < n' /\ field_of locate fs l k' b tb
        | _ => False end) /\
     (forall k' n' ms b tb, In (k', JDict n' ms) kvs -> 0 < n' -> field_of locate fs l k' b tb -> In (Define n' b tb) h0) /\
     exists h1 h2, h0 = h1 ++ Refer n x t :: h2 /\ forall op, In op (h1 ++ h2) -> ~ In x (touched op)).
  { assert (G : forall kvs1, incl kvs1 kvs -> exists h0, reads fs l keep (Datatypes.length m) kvs1 h0 /\
     (forall op, In op h0 -> match op with
        | Refer n' y t' => exists k', In (k', JPtr n') kvs1 /\ field_of locate fs l k' y t'
        | Define n' b tb => exists k' ms, In (k', JDict n' ms) kvs1 /\ 0 < n' /\ field_of locate fs l k' b tb
        | _ => False end) /\
     (forall k' n' ms b tb, In (k', JDict n' ms) kvs1 -> 0 < n' -> field_of locate fs l k' b tb -> In (Define n' b tb) h0) /\
     (forall k' n' y t', In (k', JPtr n') kvs1 -> field_of locate fs l k' y t' -> In (Refer n' y t') h0)).
    { induction kvs1 as [|[k j] kvs1 IH]; intros Hin.
      - exists []. split; [constructor|]. split; [intros op []|]. split; [intros k' n' ms b tb []|intros k' n' y t' []].
      - destruct (IH (fun z I => Hin z (or_intror I))) as (h0 & R0 & A0 & B0 & C0). pose proof (Hin _ (or_introl eq_refl)) as Ikj.
        assert (A1 : forall op, In op h0 -> match op with
          | Refer n' y t' => exists k', In (k', JPtr n') ((k, j) :: kvs1) /\ field_of locate fs l k' y t'
          | Define n' b tb => exists k' ms, In (k', JDict n' ms) ((k, j) :: kvs1) /\ 0 < n' /\ field_of locate fs l k' b tb
          | _ => False end).
        { intros op I. specialize (A0 op I). destruct op; try exact A0; [destruct A0 as (k' & ms & I' & rest); exists k', ms; split; [right; exact I'|exact rest]|destruct A0 as (k' & I' & rest); exists k'; split; [right; exact I'|exact rest]]. }
        destruct (Hkvs k j Ikj) as (b & tb & Fb & [(n' & ->)|[(n' & ms & -> & Hn' & Bt & Hms)|Pj]]).
        + exists (Refer n' b tb :: h0). assert (Ib : In b refs) by (apply RefsIn; exists k, n', tb; split; assumption). split; [|split; [|split]].
          * apply reads_ref; [exact Fb|apply KeepRef, Ib|apply RefsL, Ib|exact R0].
          * intros op [<-|I]; [exists k; split; [left; reflexivity|exact Fb]|apply A1, I].
          * intros k' n2 ms b' tb' [D|I] Hn2 F'; [discriminate|right; eapply B0; eassumption].
          * intros k' n2 y t' [D|I] F'; [injection D as <- <-; destruct (FieldFun _ _ _ _ _ F' Fb) as [-> ->]; left; reflexivity|right; eapply C0; eassumption].
        + exists (Define n' b tb :: h0). split; [|split; [|split]].
          * apply reads_node; [exact Fb|eapply KeepOther; [exact Ikj|exact Fb|reflexivity]|exact Hn'|exact Bt|exact Hms|exact R0].
          * intros op [<-|I]; [exists k, ms; split; [left; reflexivity|split; [exact Hn'|exact Fb]]|apply A1, I].
          * intros k' n2 ms2 b' tb' [D|I] Hn2 F'; [injection D as <- <- <-; destruct (FieldFun _ _ _ _ _ F' Fb) as [-> ->]; left; reflexivity|right; eapply B0; eassumption].
          * intros k' n2 y t' [D|I] F'; [discriminate|right; eapply C0; eassumption].
        + exists h0. split; [|split; [|split]].
          * eapply reads_other; [exact Fb|eapply KeepOther; [exact Ikj|exact Fb|]|exact Pj|exact R0]. destruct j; try reflexivity. destruct (proj1 Pj nid0 (sub_refl _)).
          * exact A1.
          * intros k' n2 ms2 b' tb' [D|I] Hn2 F'; [injection D as -> ->|eapply B0; eassumption]. pose proof (proj2 Pj n2 ms2 (sub_refl _)). lia.
          * intros k' n2 y t' [D|I] F'; [injection D as -> ->; destruct (proj1 Pj n2 (sub_refl _))|eapply C0; eassumption]. }
    destruct (G kvs (incl_refl _)) as (h0 & R0 & A0 & B0 & C0). exists h0. split; [exact R0|]. split; [exact A0|]. split; [exact B0|].
    (* the only reference into x *)
    clear - R0 C0 Ik Fx NDk KeyIn Hinj FieldFun Hkvs KeepOther KeepRef RefsIn.
    assert (Kx : keep x = true) by (apply KeepRef, RefsIn; exists key, n, t; split; assumption).
    assert (G : forall kvs1 h1, reads fs l keep (Datatypes.length m) kvs1 h1 -> (forall k j b tb, In (k, j) kvs1 -> field_of locate fs l k b tb -> b = x -> k = key) ->
       (~ In key (map fst kvs1) -> forall op, In op h1 -> ~ In x (touched op)) /\
       (In (key, JPtr n) kvs1 -> NoDup (map fst kvs1) -> exists g1 g2, h1 = g1 ++ Refer n x t :: g2 /\ forall op, In op (g1 ++ g2) -> ~ In x (touched op))).
    { induction 1 as [|k n' kvs1 b tb h1 Hf Ka La _ IH|k n' ms kvs1 b tb h1 Hf Ka Hn Bt Hm _ IH|k j kvs1 b tb h1 Hf Ka Pj _ IH]; intros U.
      - split; [intros _ op []|intros []].
      - destruct (IH (fun k0 j0 b0 tb0 I => U k0 j0 b0 tb0 (or_intror I))) as [IH1 IH2]. split.
        + intros N op [<-|I]; [|apply IH1; [intros J; apply N; right; exact J|exact I]]. intros [E|[]]. apply N. left. symmetry. symmetry. apply (U k (JPtr n') b tb (or_introl eq_refl) Hf E).
        + intros [D|I] ND; cbn in ND; inversion ND as [|? ? Nk ND']; subst.
          * injection D as -> ->. destruct (FieldFun _ _ _ _ _ Hf Fx) as [-> ->]. exists [], h1. split; [reflexivity|]. cbn. apply IH1, Nk.
          * destruct (IH2 I ND') as (g1 & g2 & -> & N). exists (Refer n' b tb :: g1), g2. split; [reflexivity|]. intros op [<-|J]; [|apply N, J].
            intros [E|[]]. apply Nk. rewrite (U k (JPtr n') b tb (or_introl eq_refl) Hf E). apply in_map_iff. exists (key, JPtr n). split; [reflexivity|exact I].
      - destruct (IH (fun k0 j0 b0 tb0 I => U k0 j0 b0 tb0 (or_intror I))) as [IH1 IH2]. split.
        + intros N op [<-|I]; [intros []|apply IH1; [intros J; apply N; right; exact J|exact I]].
        + intros [D|I] ND; cbn in ND; inversion ND as [|? ? Nk ND']; subst; [discriminate|].
          destruct (IH2 I ND') as (g1 & g2 & -> & N). exists (Define n' b tb :: g1), g2. split; [reflexivity|]. intros op [<-|J]; [intros []|apply N, J].
      - destruct (IH (fun k0 j0 b0 tb0 I => U k0 j0 b0 tb0 (or_intror I))) as [IH1 IH2]. split.
        + intros N op I; apply IH1; [intros J; apply N; right; exact J|exact I].
        + intros [D|I] ND; cbn in ND; inversion ND as [|? ? Nk ND']; subst; [injection D as -> ->; destruct (proj1 Pj n (sub_refl _))|]. apply IH2; assumption. }
    apply (G kvs h0 R0); [|exact Ik|exact NDk]. intros k j b tb I Fb ->. eapply Hinj; [eapply KeyIn, I|eapply KeyIn, Ik|exact Fb|exact Fx]. }
  destruct HR as (h0 & R0 & A0 & B0 & g1 & g2 & Eg & Ng).
  (* the run *)
  assert (HE : exists st e k, un_fields locate (unm k) (start m) fs l kvs [] = UOk st e /\ u_mem st = m').
  { unfold Unmarshal.Unmarshal in R. cbn [receiver resolve] in R. destruct fuel as [|fuel]; [destruct R as [R|[e R]]; discriminate|].
    cbn [Unmarshal.unm] in R. rewrite (proj2 (Z.ltb_ge 0 nid) Hnid) in R. cbn [ubind indirect] in R.
    change (with_mem {| u_mem := m; u_sess := [] |} (u_mem {| u_mem := m; u_sess := [] |})) with (start m) in R. unfold fields_of in R. cbn [u_mem start] in R. rewrite Ea in R.
    destruct (un_fields locate (unm fuel) (start m) fs l kvs []) as [st e| |] eqn:Eu; [|destruct R as [R|[e R]]; discriminate..].
    exists st, e, fuel. split; [exact Eu|]. destruct e; destruct R as [R|[e' R]]; try discriminate; injection R as <-; reflexivity. }
  destruct HE as (st & e & k & Eu & <-).
  assert (I0 : inv keep (Datatypes.length m) (start m)).
  { split; [|intros n' nv D; discriminate D]. split; [apply le_n|]. intros y c z Iy Ey Iz. left. cbn [u_mem start] in Ey.
    assert (Ny : y <> a). { intros ->. destruct Iy as [Iy|Iy]; [|apply nth_error_lt in Ey; lia]. unfold keep in Iy. destruct (in_dec Nat.eq_dec a (a :: refs)) as [_|N]; [discriminate|destruct N; left; reflexivity]. }
    destruct (Hm y c z Ey Iz) as (Lz & Nz & Nl). unfold keep. destruct (in_dec Nat.eq_dec z (a :: refs)) as [[->|J]|_]; [congruence| |reflexivity]. apply RefsL in J as [J _]. destruct (Nl Ny J). }
  destruct (members_hist fs l keep (Datatypes.length m) k kvs h0 R0 (start m) [] st e I0 Eu) as (h & Eh & Mh & Qh).
  assert (Lx : (x < Datatypes.length m)%nat) by (eapply Hm; [exact Ea|eapply FieldIn, Fx]).
  assert (Kx : keep x = true) by (apply KeepRef, RefsIn; exists key, n, t; split; assumption).
  (* where the reference is in the history *)
  assert (HS : exists b1 b2, h = b1 ++ Refer n x t :: b2 /\ marks b1 = g1 /\ marks b2 = g2).
  { rewrite Eg in Mh. clear - Mh. revert g1 Mh. induction h as [|op h IH]; intros g1 Mh; [destruct g1; discriminate|]. 
    assert (Skip : marks h = g1 ++ Refer n x t :: g2 -> marks [op] = [] -> exists b1 b2, op :: h = b1 ++ Refer n x t :: b2 /\ marks b1 = g1 /\ marks b2 = g2).
    { intros E1 E2. destruct (IH _ E1) as (b1 & b2 & -> & M1 & M2). exists (op :: b1), b2. split; [reflexivity|]. split; [|exact M2]. change (op :: b1) with ([op] ++ b1). rewrite marks_app, E2. exact M1. }
    assert (Take : marks (op :: h) = op :: marks h -> exists b1 b2, op :: h = b1 ++ Refer n x t :: b2 /\ marks b1 = g1 /\ marks b2 = g2).
    { intros E. rewrite E in Mh. destruct g1 as [|o g1]; injection Mh as -> Mh; [exists [], h; split; [reflexivity|split; [reflexivity|exact Mh]]|].
      destruct (IH _ Mh) as (b1 & b2 & -> & M1 & M2). exists (o :: b1), b2. split; [reflexivity|]. split; [|exact M2].
      assert (E' : marks [o] = [o]). { change (o :: b1 ++ Refer n x t :: b2) with ([o] ++ (b1 ++ Refer n x t :: b2)) in E. rewrite marks_app in E. destruct o; cbn in *; try reflexivity; apply (f_equal (@Datatypes.length _)) in E; cbn in E; lia. }
      change (o :: b1) with ([o] ++ b1). rewrite marks_app, E', M1. reflexivity. }
    destruct op; [apply Take; reflexivity|apply Take; reflexivity|apply Skip; [exact Mh|reflexivity]|apply Skip; [exact Mh|reflexivity]]. }
  destruct HS as (b1 & b2 & -> & M1 & M2).
  assert (InMarks : forall hh op, In op hh -> (match op with Define _ _ _ | Refer _ _ _ => True | _ => False end) -> In op (marks hh)).
  { intros hh op I O. unfold marks. apply filter_In. split; [exact I|destruct op; try destruct O; reflexivity]. }
  assert (FromMarks : forall hh op, In op (marks hh) -> In op hh) by (intros hh op I; apply filter_In in I as [I _]; exact I).
  assert (Nb : forall op, In op (b1 ++ b2) -> ~ In x (touched op)).
  { intros op I J. destruct op as [n' b tb|n' y t'|y c|gl]; cbn in J; try destruct J as [->|[]]; [destruct J| | |destruct J].
    - apply (Ng (Refer n' x t')); [|left; reflexivity]. apply in_app_or in I as [I|I]; apply in_or_app; [left; rewrite <- M1|right; rewrite <- M2]; apply InMarks; [exact I|exact Logic.I|exact I|exact Logic.I].
    - assert (I' : In (Store x c) (b1 ++ Refer n x t :: b2)) by (apply in_app_or in I as [I|I]; apply in_or_app; [left; exact I|right; right; exact I]).
      pose proof (Qh x c I' Kx). lia. }
  assert (DefIn : forall n' b tb, In (Define n' b tb) (b1 ++ Refer n x t :: b2) <-> In (Define n' b tb) h0).
  { intros n' b tb. rewrite <- Mh. split; [intros I; apply InMarks; [exact I|exact Logic.I]|apply FromMarks]. }
  split.
  - intros k' ms b tb I' Hn Fb U. eapply (C33_any_order m _ st b1 n x t b2 b tb Eh eq_refl Lx Nb).
    + apply DefIn. eapply B0; eassumption.
    + intros b' tb' I2. apply DefIn in I2. destruct (A0 _ I2) as (k2 & ms2 & I3 & _ & F3). rewrite (U _ _ I3) in F3. eapply FieldFun; eassumption.
  - intros Hno. rewrite (C33_targets_hold_node m b1 n x t b2 st Eh Lx Nb).
    assert (M : meant n b1 b2 = None); [|rewrite M; reflexivity]. apply meant_none. intros b tb I2.
    assert (I3 : In (Define n b tb) h0) by (apply DefIn; apply in_app_or in I2 as [I2|I2]; apply in_or_app; [left; exact I2|right; right; exact I2]).
    destruct (A0 _ I3) as (k2 & ms2 & I4 & H4 & _). destruct Hno as [Hno|Hno]; [lia|exact (Hno k2 ms2 I4)].
Qed.
End Flat.

(** ** Limits *)

Fixpoint tsize (t : gty) : nat :=
  match t with
  | TSlice t | TMap t | TMapOther t | TPtr t | TArray _ t => Datatypes.S (tsize t)
  | _ => 0%nat
  end.
Lemma ty_eqb_size a : forall b, ty_eqb a b = true -> tsize a = tsize b.
Proof.
  induction a; intros b E; destruct b; cbn in E; try discriminate; try reflexivity; cbn; try (f_equal; apply IHa; exact E).
  apply andb_prop in E as [_ E]. f_equal. apply IHa, E.
Qed.
Lemma not_own_pointer t : ty_eqb t (TPtr t) = false.
Proof. destruct (ty_eqb t (TPtr t)) eqn:E; [|reflexivity]. apply ty_eqb_size in E. cbn in E. lia. Qed.

(** FALSE for pointers in general: if a reference is read into a variable of
    type *t, a later node with its number that is read into another variable of
    type *t makes Unmarshal panic - the session takes the pointer to the
    variable, of type **t, for the pointer to the node. *)
Theorem C33_pointer_after_reference_refuted env locate match_us match_eu to_bool parse_time time_json std_ok :
  forall fuel m nm fs a l nid k1 k2 n ms rest x y t,
  nth_error m a = Some (VStruct l) -> nid <= 0 -> 0 < n ->
  field_of locate fs l k1 x (TPtr t) -> field_of locate fs l k2 y (TPtr t) ->
  Unmarshal env locate match_us match_eu to_bool parse_time time_json std_ok (Datatypes.S (Datatypes.S fuel)) m (TStruct nm fs) a
    (JDict nid ((k1, JPtr n) :: (k2, JDict n ms) :: rest)) [] = TopPanic.
Proof.
  intros fuel m nm0 fs a l nid k1 k2 n ms rest x y t Ea Hnid Hn (i & f & E1 & E2 & E3 & E4) (i' & f' & F1 & F2 & F3 & F4).
  unfold Unmarshal.Unmarshal. cbn [receiver resolve].
  cbn [Unmarshal.unm]. rewrite (proj2 (Z.ltb_ge 0 nid) Hnid). cbn [ubind indirect].
  change (with_mem {| u_mem := m; u_sess := [] |} (u_mem {| u_mem := m; u_sess := [] |})) with (start m). unfold fields_of. cbn [u_mem start]. rewrite Ea.
  set (un := fun (st : ustate) (t : gty) (a : addr) (j : json) => _).
  change (un_fields locate un (start m) fs l ((k1, JPtr n) :: (k2, JDict n ms) :: rest) []) with
    (ubind (set_field locate un (Datatypes.S (Datatypes.S (Datatypes.length fs))) (start m) [] fs l k1 (JPtr n)) (fun st1 r =>
      un_fields locate un st1 fs l ((k2, JDict n ms) :: rest) (match snd r with Some e => [] ++ [(k1, e)] | None => [] end))).
  rewrite (set_field_one locate fs l un (start m) k1 i f (TPtr t) x (JPtr n) E1 E2 E3 E4).
  change (un (start m) (TPtr t) x (JPtr n)) with (set_pointer_value (start m) n x (TPtr t)). cbn [set_pointer_value start u_sess find_node ubind snd u_mem].
  set (st1 := {| u_mem := m; u_sess := _ |}).
  change (un_fields locate un st1 fs l ((k2, JDict n ms) :: rest) []) with
    (ubind (set_field locate un (Datatypes.S (Datatypes.S (Datatypes.length fs))) st1 [] fs l k2 (JDict n ms)) (fun st1 r =>
      un_fields locate un st1 fs l rest (match snd r with Some e => [] ++ [(k2, e)] | None => [] end))).
  rewrite (set_field_one locate fs l un st1 k2 i' f' (TPtr t) y (JDict n ms) F1 F2 F3 F4).
  assert (P : un st1 (TPtr t) y (JDict n ms) = UPanic); [|rewrite P; reflexivity].
  unfold un. cbn [Unmarshal.unm]. rewrite (proj2 (Z.ltb_lt 0 n) Hn). unfold save_node_value. unfold st1. cbn [u_sess put_node find_node u_mem]. rewrite Z.eqb_refl.
  cbn [nv_targets set_targets set_pointer]. rewrite not_own_pointer. reflexivity.
Qed.

(** type T struct { X int }
    type S struct { A *T; B T; C *T; D interface{}; E *T } *)
Definition se_env (n : nat) : list (finfo * gty) :=
  match n with
  | 0%nat => [(plain (nm "x"), TInt (Signed 64))]
  | 1%nat => [(plain (nm "a"), TPtr (TNamed 0)); (plain (nm "b"), TStruct 0 [(plain (nm "x"), TInt (Signed 64))]);
              (plain (nm "c"), TPtr (TNamed 0)); (plain (nm "d"), TIface); (plain (nm "e"), TPtr (TNamed 0))]
  | 2%nat => [(plain (nm "p"), TPtr (TNamed 0))]
  | 3%nat => [(plain (nm "m"), TMap (TNamed 2)); (plain (nm "n"), TStruct 0 [(plain (nm "x"), TInt (Signed 64))])]
  | _ => []
  end.
Notation se_unm := (Unmarshal se_env by_name (fun _ => false) (fun _ => false) (fun _ => true) (fun _ => None) (fun _ => None) (fun _ => true)).
Definition se_t : gty := TStruct 1 (se_env 1).
Definition se_doc : list (bytes * json) :=
  [(nm "a", JPtr 1); (nm "b", JDict 1 [(nm "x", JInt 5)]); (nm "c", JPtr 1); (nm "d", JPtr 1); (nm "e", JPtr 7)].

(** References before and after the node, and one without a node. *)
Example C33_example : exists l m', forall n, (20 <= n)%nat ->
  se_unm n (fst (zalloc se_t [])) se_t (snd (zalloc se_t [])) (JDict 0 se_doc) [] = TopOk m' /\
  nth_error (fst (zalloc se_t [])) 6 = Some (VStruct l) /\
  (forall k j, In (k, j) se_doc -> exists b t, field_of by_name (se_env 1) l k b t /\ flat_member t j) /\
  nth_error m' 0 = Some (VPtr (Some 2%nat)) /\ nth_error m' 3 = Some (VPtr (Some 2%nat)) /\
  nth_error m' 4 = Some (VIface (Some (DynPtr 2%nat (TStruct 0 (se_env 0))))) /\ nth_error m' 5 = Some (VPtr None) /\
  nth_error m' 2 = Some (VStruct [1%nat]) /\ nth_error m' 1 = Some (VInt 5).
Proof.
  exists [0; 2; 3; 4; 5]%nat. eexists. intros n L. split.
  { rewrite (Unmarshal_more _ _ _ _ _ _ _ _ 20%nat n _ _ _ _ _ L); [vm_compute; reflexivity|vm_compute; discriminate]. }
  split; [reflexivity|]. split; [|repeat split; reflexivity].
  assert (F : forall k b t i f, by_name (se_env 1) k = [i] -> nth_error (se_env 1) i = Some (f, t) -> fi_deprecated_by f = None -> nth_error [0; 2; 3; 4; 5]%nat i = Some b -> field_of by_name (se_env 1) [0; 2; 3; 4; 5]%nat k b t)
    by (intros; eexists _, _; repeat split; eassumption).
  intros k j [D|[D|[D|[D|[D|[]]]]]]; injection D as <- <-; eexists _, _; (split; [eapply F; [vm_compute; reflexivity|reflexivity|reflexivity|reflexivity]|]).
  - left. eexists. reflexivity.
  - right. left. eexists _, _. split; [reflexivity|]. split; [lia|]. split; [exact Logic.I|]. intros k x [D|[]]. injection D as <- <-.
    split; [intros p Sb; inversion Sb|intros p kvs Sb; inversion Sb].
  - left. eexists. reflexivity.
  - left. eexists. reflexivity.
  - left. eexists. reflexivity.
Qed.

(** FALSE inside maps: type M struct { M map[string]struct{ P *T }; N T }.  The
    value of a map member is read into a variable of its own and copied into
    the map, so a reference in it to a later node gets lost without an error. *)
Theorem C33_reference_in_map_refuted : exists kvs m' d b, let t := TStruct 3 (se_env 3) in
  (forall n, (20 <= n)%nat -> se_unm n (fst (zalloc t [])) t (snd (zalloc t [])) (JDict 0 kvs) [] = TopOk m') /\
  In (nm "m", JDict 0 [(nm "a", JDict 0 [(nm "p", JPtr 1)])]) kvs /\ In (nm "n", JDict 1 [(nm "x", JInt 5)]) kvs /\
  (* m.a.p *)
  nth_error m' (snd (zalloc t [])) = Some (VStruct [0; 2]%nat) /\ nth_error m' 0 = Some (VMap (Some d)) /\
  (exists p, nth_error m' d = Some (VMapData [(nm "a", p)]) /\ nth_error m' p = Some (VStruct [b])) /\
  nth_error m' b = Some (VPtr None).
Proof.
  exists [(nm "m", JDict 0 [(nm "a", JDict 0 [(nm "p", JPtr 1)])]); (nm "n", JDict 1 [(nm "x", JInt 5)])]. eexists. eexists. eexists. cbv zeta. split.
  { intros n L. rewrite (Unmarshal_more _ _ _ _ _ _ _ _ 20%nat n _ _ _ _ _ L); [vm_compute; reflexivity|vm_compute; discriminate]. }
  split; [left; reflexivity|]. split; [right; left; reflexivity|]. split; [reflexivity|]. split; [reflexivity|]. split; [eexists; split; reflexivity|]. reflexivity.
Qed.
