(** Unmarshal restores what MarshalAll made: the induction. *)
From Verif Require Import Base Strconv SortedMap SortedMapFacts Json SpecJson Heap Gotypes SpecMarshal SpecEncode Printer Marshal MarshalEnc2 MarshalFinal PropMarshal Access Unmarshal SpecUnmarshal UnmFacts UnmTotal FloatWidth SpecRestore RestoreMem MarshalOrder TextScalars.

Scheme encodes_ind2 := Minimality for encodes Sort Prop
  with enc_elems_ind2 := Minimality for enc_elems Sort Prop
  with enc_members_ind2 := Minimality for enc_members Sort Prop
  with enc_fields_ind2 := Minimality for enc_fields Sort Prop.

Lemma ty_eqb_refl t : ty_eqb t t = true.
Proof.
  induction t as [t Ht|t IH|k t IH|t IH|t IH|t IH|n fs IH] using gty_ind'; try exact IH.
  - destruct t as [|k| | | | | | | | | | | | | | |k|k| | |]; try destruct Ht; try reflexivity; try (cbn; apply Nat.eqb_refl); try apply Z.eqb_refl; destruct k; try reflexivity; apply Z.eqb_refl.
  - cbn. rewrite Nat.eqb_refl. exact IH.
  - cbn. apply Nat.eqb_refl.
Qed.

(* No value of this kind is held by this type. *)
Ltac absurd_holds H := exfalso; cbn in H; repeat match type of H with match ?o with _ => _ end => destruct o; cbn in H end; exact H.

Section Restore.
Context (env : nat -> list (finfo * gty)) (locate : list (finfo * gty) -> bytes -> list nat).
Context (match_us match_eu : bytes -> bool) (to_bool : bytes -> bool)
  (parse_time : bytes -> option bytes) (time_json : bytes -> option (option bytes)) (std_ok : bytes -> bool).
Notation shows := (SpecRestore.shows time_json).
Notation unm := (unm env locate match_us match_eu to_bool parse_time time_json std_ok).
Notation named := (SpecUnmarshal.named env).
Notation proper := (proper env).
Notation restorable := (restorable locate).

Context (stg : store) (omit : bool) (types : list gty) (f : Z -> option addr).
Notation holds := (holds env parse_time time_json types).
Hypothesis Henv : env_ok env.
Hypothesis Henvr : forall n, restorable (TStruct n (env n)).
Hypothesis Hst : typed_store env locate parse_time time_json types stg.

(** Fields with the string option below [v] hold what their texts mean. *)
Notation survives_text := (survives_text match_us match_eu to_bool).
Definition texts (i : option finfo) (v : gval) : Prop :=
  forall i' w, sub stg (i, v) (i', w) -> text_carries match_us match_eu to_bool std_ok i' w.
Lemma texts_sub i v i' w : (forall p, sub stg (i', w) p -> sub stg (i, v) p) -> texts i v -> texts i' w.
Proof. intros S H i0 w0 Sb. apply H. apply S, Sb. Qed.
Lemma texts_here i v : texts i v -> forced i = true -> survives_text v /\ match v with GSlice (Some _) | GArray _ | GMap (Some _) | GStruct _ => False | _ => True end.
Proof. intros H. apply (proj1 (H i v (S_refl _ _))). Qed.
Lemma texts_std i j : texts i (GStd j) -> std_ok (String_ j) = true.
Proof. intros H. exact (proj2 (H i (GStd j) (S_refl _ _))). Qed.
Lemma no_text (P : Prop) i v : (forced i = true -> P /\ match v with GSlice (Some _) | GArray _ | GMap (Some _) | GStruct _ => False | _ => True end) ->
  forced i = true -> ~ is_nil v -> match v with GSlice _ | GArray _ | GMap _ | GStruct _ => True | _ => False end -> False.
Proof. intros Q Hf Hn Hc. destruct (Q Hf) as [_ X]. destruct v as [| | | | | |[]| |[]| | | | | | | |]; try contradiction; apply Hn; exact Logic.I. Qed.
Lemma texts_ptr i s x : nth_error stg s = Some x -> texts i (GPtr (Some s)) -> texts i x.
Proof. intros E. apply texts_sub. intros p. apply S_ptr, E. Qed.

Lemma holds_ptr_type s t : holds (GPtr (Some s)) (TPtr t) -> nth_error types s = Some (named t).
Proof. destruct t; intros H; first [exact H|destruct H]. Qed.

Definition rel (φ : list (addr * addr)) (s b : addr) : Prop := In (s, b) φ.

Definition dict_type (t : gty) : Prop := match t with TStruct _ _ | TMap _ => True | _ => False end.
Definition idle (ss : session) : Prop := forall n nv, find_node ss n = Some nv -> nv_targets nv = [].
Definition sess_ok (seen : list Z) (φ : list (addr * addr)) (ss : session) : Prop :=
  idle ss /\ forall n, In n seen -> exists s b tb, find_node ss n = Some {| nv_value := Some (b, tb); nv_targets := [] |} /\
    f n = Some s /\ In (s, b) φ /\ nth_error types s = Some tb /\ dict_type tb.

Lemma sess_more seen seen' φ φ' ss : incl seen' seen -> incl φ φ' -> sess_ok seen φ ss -> sess_ok seen' φ' ss.
Proof. intros I1 I2 [Q H]. split; [exact Q|]. intros n I. destruct (H n (I1 n I)) as (s & b & tb & E & Ef & Ip & Et & D). exists s, b, tb. auto. Qed.

Lemma sess_put seen φ ss n s b tb : idle ss -> (forall k, In k seen -> k <> n -> exists s b tb, find_node ss k = Some {| nv_value := Some (b, tb); nv_targets := [] |} /\
    f k = Some s /\ In (s, b) φ /\ nth_error types s = Some tb /\ dict_type tb) ->
  f n = Some s -> In (s, b) φ -> nth_error types s = Some tb -> dict_type tb ->
  sess_ok (n :: seen) φ (put_node ss n {| nv_value := Some (b, tb); nv_targets := [] |}).
Proof.
  intros Q H Ef Ip Et D. split.
  - intros k nv. cbn [put_node find_node]. destruct (n =? k); [|apply Q]. intros E. inversion E. reflexivity.
  - intros k I. cbn [put_node find_node]. destruct (Z.eqb_spec n k) as [<-|N]; [exists s, b, tb; auto|]. apply H; [destruct I as [I|I]; [congruence|exact I]|congruence].
Qed.

(** The nodes that must be known before [j] is read: its own is not. *)
Definition before (j : json) (seen : list Z) : list Z :=
  match j with JDict n _ => if 0 <? n then filter (fun k => negb (k =? n)) seen else seen | _ => seen end.
Lemma before_incl j seen : incl (before j seen) seen.
Proof. destruct j; try apply incl_refl. cbn. destruct (0 <? nid); [|apply incl_refl]. intros x I. apply filter_In in I. apply I. Qed.

Lemma shows_above (R R' : addr -> addr -> Prop) L m lo' hi' m' L2 v a : shows R (part_of 0 0 L m) v a -> kept lo' hi' m m' -> (forall s b, R s b -> R' s b) ->
  (hi' <= L)%nat -> (L2 <= L)%nat -> shows R' (part_of 0 0 L2 m') v a.
Proof. intros S K HR H1 H2. eapply shows_kept; [exact K|exact HR| | |exact H2|exact S]; intros; lia. Qed.

(** Pairs of [φ'] that are not in [φ] are shown in the part of memory from [L] on. *)
Definition pairs_ok (L : nat) (m : mem) (φ φ' : list (addr * addr)) : Prop :=
  forall s b, In (s, b) φ' -> In (s, b) φ \/ exists x, nth_error stg s = Some x /\ shows (rel φ') (part_of 0 0 L m) x b.

Definition done (lo hi : nat) (seen : list Z) (st : ustate) (φ : list (addr * addr)) (st' : ustate) (φ' : list (addr * addr)) : Prop :=
  incl φ φ' /\ kept lo hi (u_mem st) (u_mem st') /\ pairs_ok (length (u_mem st)) (u_mem st') φ φ' /\ sess_ok seen φ' (u_sess st').

Lemma done_trans lo1 hi1 lo2 hi2 lo hi seen1 seen2 st1 φ1 st2 φ2 st3 φ3 :
  done lo1 hi1 seen1 st1 φ1 st2 φ2 -> done lo2 hi2 seen2 st2 φ2 st3 φ3 -> (hi2 <= length (u_mem st1))%nat ->
  (lo <= lo1)%nat -> (lo <= lo2)%nat -> (hi1 <= hi)%nat -> (hi2 <= hi)%nat -> done lo hi seen2 st1 φ1 st3 φ3.
Proof.
  intros (I1 & K1 & P1 & S1) (I2 & K2 & P2 & S2) H A1 A2 B1 B2. split; [eapply incl_tran; eassumption|]. split; [apply (kept_trans lo hi _ (u_mem st2)); [apply (kept_more lo1 hi1)|apply (kept_more lo2 hi2)]; assumption|].
  split; [|exact S2]. intros s b I. destruct (P2 s b I) as [I'|(x & Ex & Sx)].
  - destruct (P1 s b I') as [I''|(x & Ex & Sx)]; [left; exact I''|]. right. exists x. split; [exact Ex|].
    eapply shows_above; [exact Sx|exact K2|intros ? ? Iq; apply I2, Iq|exact H|apply Nat.le_refl].
  - right. exists x. split; [exact Ex|]. destruct K1 as [L1 _]. eapply shows_above; [exact Sx|apply (kept_refl 0 0)|auto|apply Nat.le_0_l|exact L1].
Qed.

(** After memory has grown and changed in [lo, hi). *)
Lemma done_after lo hi lo2 hi2 seen st ss m1 φ st2 φ2 :
  kept lo hi (u_mem st) m1 -> done lo2 hi2 seen {| u_mem := m1; u_sess := ss |} φ st2 φ2 ->
  (forall x, (lo2 <= x < hi2)%nat -> (lo <= x < hi \/ length (u_mem st) <= x)%nat) -> done lo hi seen st φ st2 φ2.
Proof.
  intros K1 (I2 & K2 & P2 & S2) H. split; [exact I2|]. cbn [u_mem] in *. destruct K1 as [L1 E1]. destruct K2 as [L2 E2]. split; [|split; [|exact S2]].
  - split; [lia|]. intros x Lx N. rewrite E2, E1; [reflexivity|exact Lx|exact N|lia|]. intros B. destruct (H x B); [contradiction|lia].
  - intros s b I. destruct (P2 s b I) as [I'|(x & Ex & Sx)]; [left; exact I'|]. right. exists x. split; [exact Ex|].
    eapply shows_above; [exact Sx|apply (kept_refl 0 0)|auto|apply Nat.le_0_l|exact L1].
Qed.

(** Where a value that was reached by following the pointers [own] goes. *)
Definition place (own : list addr) (v : gval) (φ : list (addr * addr)) (t : gty) (a : addr) : Prop :=
  match v with
  | GStruct _ | GMap _ => own = [] \/ exists s, own = [s] /\ In (s, a) φ /\ nth_error types s = Some t
  | GPtr _ | GIface _ => own = [] \/ basic t
  | _ => True
  end.

Definition claim (own : list addr) (v : gval) (j : json) : Prop :=
  forall t, holds v t -> proper t -> restorable t ->
  forall seen st φ lo a, ordered seen (events j) -> fresh (u_mem st) t lo a -> sess_ok (before j seen) φ (u_sess st) -> place own v φ t a ->
  exists N st' φ', (forall n, (N <= n)%nat -> unm n st t a j = UOk st' None) /\
    done lo (S a) (after seen (events j)) st φ st' φ' /\ shows (rel φ') (part_of lo (S a) (length (u_mem st)) (u_mem st')) v a.

(** ** Simple values *)

Lemma write_done st a c φ seen : (a < length (u_mem st))%nat -> sess_ok seen φ (u_sess st) ->
  done a (S a) seen st φ (with_mem st (mwrite (u_mem st) a c)) φ.
Proof.
  intros La S. split; [apply incl_refl|]. split; [apply kept_write; lia|]. split; [intros s b I; left; exact I|exact S].
Qed.

Lemma part_written m a c L : (a < length m)%nat -> part_of a (S a) L (mwrite m a c) a = Some c.
Proof. intros H. apply part_in; [left; lia|apply mwrite_same, H]. Qed.

Lemma fresh_simple m t lo a : simple t -> fresh m t lo a -> lo = a /\ nth_error m a = Some (zero_cell t) /\ (a < length m)%nat.
Proof. intros S F. inversion F; subst; try destruct S. repeat split; [assumption|]. eapply nth_error_lt; eassumption. Qed.

Lemma simple_claim own v j c : events j = [] ->
  (forall t, holds v t -> restorable t -> simple t /\ forall n st a, nth_error (u_mem st) a = Some (zero_cell t) -> unm (S n) st t a j = UOk (with_mem st (mwrite (u_mem st) a c)) None) ->
  (forall R g a, g a = Some c -> shows R g v a) -> claim own v j.
Proof.
  intros Ev H Sh t Ht Hp Hr seen st φ lo a Ho F Hs _. destruct (H t Ht Hr) as [S W]. apply (fresh_simple _ _ _ _ S) in F as (-> & E & La).
  exists 1%nat, (with_mem st (mwrite (u_mem st) a c)), φ. split; [intros [|n] Ln; [lia|]; apply W, E|]. rewrite Ev. cbn [after]. split.
  - apply write_done; [exact La|]. assert (before j seen = seen) as <-; [|exact Hs]. destruct j; try reflexivity. cbn in Ev |- *. destruct (0 <? nid); [discriminate|reflexivity].
  - apply Sh, part_written, La.
Qed.

Lemma mwrite_twice m : forall a c c', mwrite (mwrite m a c) a c' = mwrite m a c'.
Proof. induction m as [|x m IH]; intros [|a] c c'; cbn [mwrite]; try reflexivity. rewrite IH. reflexivity. Qed.

Lemma with_mem_id st : with_mem st (u_mem st) = st. Proof. destruct st; reflexivity. Qed.

Lemma pure_events j : node_ids j = [] -> ref_ids j = [] -> events j = [].
Proof.
  induction j as [|x|z|g bit|s|l IH|nid kvs IH|n] using json_ind'; intros H1 H2; try reflexivity; try discriminate.
  - cbn in *. induction l as [|x l IHl]; [reflexivity|]. cbn in *. apply app_eq_nil in H1 as [A1 A2], H2 as [C1 C2]. inversion IH; subst. rewrite H1 by assumption. apply IHl; assumption.
  - cbn in *. apply app_eq_nil in H1 as [A1 A2]. destruct (0 <? nid); [discriminate|]. cbn. clear A1. induction kvs as [|[k x] kvs IHl]; [reflexivity|]. cbn in *.
    apply app_eq_nil in A2 as [A1 A2], H2 as [C1 C2]. inversion IH as [|? ? I1 I2]; subst. cbn [snd] in I1. rewrite I1 by assumption. apply IHl; assumption.
Qed.

Lemma json_obj_claim own j : claim own (GJsonObj (Some j)) j.
Proof.
  intros t Ht. assert (P : pure_json j) by (destruct t; try absurd_holds Ht; exact Ht).
  assert (Ev : events j = []) by (apply pure_events; apply P). revert t Ht. apply simple_claim with (c := VJson (Some j)); [exact Ev| |intros R g a E; constructor; exact E].
  intros t Ht _. destruct t; try destruct Ht. split; [exact Logic.I|]. intros n st a E. destruct P as (N1 & N2 & N3).
  destruct j; try congruence; try discriminate; cbn [Unmarshal.unm indirect step_scalar step_int step_bool step_float step_string]; rewrite ?with_mem_id; try reflexivity.
  cbn in N2. destruct (0 <? nid); [discriminate|]. cbn [ubind]. rewrite with_mem_id. reflexivity.
Qed.

Lemma json_ptr_claim own j : claim own (GJsonPtr (Some j)) j.
Proof.
  intros t Ht. assert (P : pure_json j) by (destruct t; try absurd_holds Ht; apply Ht).
  assert (Ev : events j = []) by (apply pure_events; apply P). revert t Ht. apply simple_claim with (c := VJson (Some j)); [exact Ev| |intros R g a E; constructor; exact E].
  intros t Ht _. destruct t; try absurd_holds Ht. destruct Ht as [_ Hk]. split; [exact Logic.I|]. intros n st a E. destruct P as (N1 & N2 & N3).
  destruct j; try congruence; try discriminate; injection Hk as <-; cbn [Unmarshal.unm indirect step_scalar step_int step_bool step_float step_string]; rewrite ?E; cbn [zero_cell u_mem with_mem]; rewrite ?mwrite_twice; try reflexivity.
  cbn in N2. destruct (0 <? nid); [discriminate|]. cbn [ubind]. rewrite E. cbn [zero_cell zero_json u_mem with_mem]. rewrite mwrite_twice. reflexivity.
Qed.

(** Types with MarshalJSON and UnmarshalJSON. *)
Lemma std_unm n st t a j m1 b c : pure_json j -> indirect env t a (u_mem st) = (m1, Some b) -> (t = TStd \/ t = TPtr TStd \/ t = TPtr TTime) ->
  call_std time_json std_ok m1 b (String_ j) = (mwrite m1 b c, None) ->
  unm (S n) st t a j = UOk (with_mem st (mwrite m1 b c)) None.
Proof.
  intros (N1 & N2 & N3) In_ Ht C.
  destruct j; try congruence; try discriminate; cbn [Unmarshal.unm]; rewrite ?In_, ?C; try reflexivity.
  - destruct Ht as [-> |[-> | ->]]; rewrite ?In_, ?C; reflexivity.
  - cbn in N2. destruct (0 <? nid); [discriminate|]. cbn [ubind]. rewrite In_, C. reflexivity.
Qed.

(* What UnmarshalJSON leaves in a variable of type [t]. *)
Definition std_reads (t : gty) (j : json) (c : vcell) : Prop :=
  (t = TStd /\ std_ok (String_ j) = true /\ c = VStd (Some (String_ j))) \/ (t = TTime /\ exists o, time_json (String_ j) = Some o /\ c = VTime o).

Lemma std_reads_call t j c m b : std_reads t j c -> nth_error m b = Some (zero_cell t) -> call_std time_json std_ok m b (String_ j) = (mwrite m b c, None).
Proof. intros [(-> & So & ->)|(-> & o & T & ->)] E; cbn [zero_cell] in E; unfold call_std; rewrite E, ?So, ?T; reflexivity. Qed.

Lemma std_ptr st a t j c : pure_json j -> std_reads t j c -> nth_error (u_mem st) a = Some (VPtr None) ->
  exists mf, (forall n, unm (S n) st (TPtr t) a j = UOk (with_mem st mf) None) /\ kept a (S a) (u_mem st) mf /\
    nth_error mf a = Some (VPtr (Some (length (u_mem st)))) /\ nth_error mf (length (u_mem st)) = Some c.
Proof.
  intros P Sr E. assert (La : (a < length (u_mem st))%nat) by (eapply nth_error_lt; exact E).
  set (b := length (u_mem st)). set (m0 := mwrite (u_mem st ++ [zero_cell t]) a (VPtr (Some b))).
  assert (L0 : length m0 = S b) by (subst m0 b; rewrite mwrite_length, app_length; cbn; lia).
  assert (Eb : nth_error m0 b = Some (zero_cell t)) by (subst m0; rewrite mwrite_other by (subst b; lia); apply nth_error_last).
  assert (Ea0 : nth_error m0 a = Some (VPtr (Some b))) by (subst m0; apply mwrite_same; rewrite app_length; lia).
  exists (mwrite m0 b c). split; [|split; [|split]].
  - intros n. apply (std_unm n st (TPtr t) a j m0 b c P); [| |apply (std_reads_call t); assumption].
    + destruct Sr as [(-> & _)|(-> & _)]; cbn [indirect]; rewrite E; reflexivity.
    + destruct Sr as [(-> & _)|(-> & _)]; tauto.
  - split; [rewrite mwrite_length, L0; subst b; lia|]. intros y Ly Ny. rewrite mwrite_other by (subst b; lia). subst m0. rewrite mwrite_other by lia. apply nth_error_app1, Ly.
  - rewrite mwrite_other by (subst b; lia). exact Ea0.
  - apply mwrite_same. lia.
Qed.

Lemma std_claim own i j : texts i (GStd j) -> claim own (GStd j) j.
Proof.
  intros T t Ht. pose proof (texts_std _ _ T) as So.
  assert (Ct : pure_json j /\ (t = TStd \/ exists t' c, t = TPtr t' /\ std_reads t' j c)).
  { destruct t as [| | | | | | | | | |t| | | | | | | | | |]; try absurd_holds Ht; [destruct t; try absurd_holds Ht|].
    - destruct Ht as [P Nt]. split; [exact P|]. right. destruct (time_json (String_ j)) as [o|] eqn:Eo; [|congruence].
      exists TTime, (VTime o). split; [reflexivity|]. right. split; [reflexivity|]. exists o. split; [exact Eo|reflexivity].
    - split; [exact Ht|]. right. exists TStd, (VStd (Some (String_ j))). split; [reflexivity|]. left. auto.
    - split; [exact Ht|]. left. reflexivity. }
  destruct Ct as [P Ct]. assert (Ev : events j = []) by (apply pure_events; apply P).
  destruct Ct as [->|(t' & c & -> & Sr)].
  { revert Ht. revert P. intros P Ht.
    intros Hp Hr seen st φ lo a Ho F Hs _. apply (fresh_simple _ TStd _ _ Logic.I) in F as (-> & E & La).
    exists 1%nat, (with_mem st (mwrite (u_mem st) a (VStd (Some (String_ j))))), φ. split; [|split].
    - intros [|n] Ln; [lia|]. apply (std_unm n st TStd a j (u_mem st) a _ P eq_refl (or_introl eq_refl)). apply (std_reads_call TStd); [left; auto|exact E].
    - rewrite Ev. apply write_done; [exact La|]. assert (before j seen = seen) as <-; [|exact Hs]. destruct j; try reflexivity. cbn in Ev |- *. destruct (0 <? nid); [discriminate|reflexivity].
    - apply sh_std, part_written, La. }
  intros Hp Hr seen st φ lo a Ho F Hs _. apply (fresh_simple _ (TPtr t') _ _ Logic.I) in F as (-> & E & La).
  destruct (std_ptr st a t' j c P Sr E) as (mf & U & K & Ea & Eb).
  exists 1%nat, (with_mem st mf), φ. split; [|split].
  - intros [|n] Ln; [lia|]. apply U.
  - rewrite Ev. cbn [after]. split; [apply incl_refl|]. split; [exact K|]. split; [intros s c0 I; left; exact I|].
    cbn [u_sess with_mem]. assert (before j seen = seen) as <-; [|exact Hs]. destruct j; try reflexivity. cbn in Ev |- *. destruct (0 <? nid); [discriminate|reflexivity].
  - cbn [u_mem with_mem]. destruct Sr as [(-> & _ & ->)|(-> & o & To & ->)].
    + apply sh_std_ptr with (b := length (u_mem st)); apply part_in; try assumption; lia.
    + apply sh_std_time with (o := o) (b := length (u_mem st)); [apply part_in; try assumption; lia..|exact To].
Qed.

Lemma nil_claim own v : is_nil v -> claim own v JNull.
Proof.
  intros Hn t Ht Hp Hr seen st φ lo a Ho F Hs _.
  assert (S : simple t) by (destruct v as [| | | |[]| |[]| |[]| |[]|[]|[]|[]| | |]; try destruct Hn; destruct t; try destruct Ht; exact Logic.I).
  apply (fresh_simple _ _ _ _ S) in F as (-> & E & La).
  assert (Z : set_zero t a (u_mem st) = u_mem st) by (destruct t; try destruct S; cbn [set_zero]; apply mwrite_id, E).
  exists 1%nat, st, φ. split; [intros [|n] Ln; [lia|]; cbn [Unmarshal.unm]; rewrite Z, with_mem_id; reflexivity|]. cbn [events after]. split.
  - split; [apply incl_refl|]. split; [apply kept_refl|]. split; [intros s b I; left; exact I|exact Hs].
  - assert (P : part_of a (Datatypes.S a) (length (u_mem st)) (u_mem st) a = Some (zero_cell t)) by (apply part_in; [left; lia|exact E]).
    destruct v as [| | | |[]| |[]| |[]| |[]|[]|[]|[]| | |]; try destruct Hn; destruct t; try absurd_holds Ht; cbn [zero_cell] in P; constructor; exact P.
Qed.

(** ** Scalars *)

Lemma bool_claim own i b : texts i (GBool b) -> claim own (GBool b) (if forced i then JString (if b then txt_true else txt_false) else JBool b).
Proof.
  intros T. pose proof (texts_here _ _ T) as Q. destruct (forced i); [specialize (Q eq_refl)|clear Q].
  { apply simple_claim with (c := VBool b); [reflexivity| |intros R g a E; constructor; exact E].
    intros t Ht _. destruct t; try destruct Ht. split; [exact Logic.I|]. intros n st a E. cbn [Unmarshal.unm indirect step_scalar step_string]. rewrite with_mem_id, (proj1 Q). reflexivity. }
  apply simple_claim with (c := VBool b); [reflexivity| |intros R g a E; constructor; exact E].
  intros t Ht _. destruct t; try destruct Ht. split; [exact Logic.I|]. intros n st a E. cbn [Unmarshal.unm indirect step_scalar step_bool]. rewrite with_mem_id. reflexivity.
Qed.

Lemma int_claim own i k z : texts i (GInt k z) -> claim own (GInt k z) (if forced i then JString (format_int (wrap (Signed 64) z)) else JInt (wrap (Signed 64) z)).
Proof.
  intros T. pose proof (texts_here _ _ T) as Q. destruct (forced i); [specialize (Q eq_refl)|clear Q].
  { apply simple_claim with (c := VInt z); [reflexivity| |intros R g a E; constructor; exact E].
    intros t Ht Hr. destruct t; try absurd_holds Ht. destruct Ht as [-> Hk]. split; [exact Logic.I|]. intros n st a E. cbn [Unmarshal.unm indirect step_scalar]. rewrite with_mem_id.
    rewrite int_from_text; [reflexivity|exact Hr|exact Hk|exact (proj1 Q)]. }
  apply simple_claim with (c := VInt z); [reflexivity| |intros R g a E; constructor; exact E].
  intros t Ht Hr. destruct t; try absurd_holds Ht. destruct Ht as [-> Hk]. split; [exact Logic.I|]. intros n st a E. cbn [Unmarshal.unm indirect step_scalar step_int]. rewrite with_mem_id.
  pose proof (wrap_id k0 z) as W. destruct k0; cbn [SpecRestore.restorable] in Hr; rewrite (W Hr Hk); reflexivity.
Qed.

Lemma float_claim own i bit x : texts i (GFloat bit x) -> claim own (GFloat bit x) (if forced i then JString (format_f6 x) else JFloat x bit).
Proof.
  intros T. pose proof (texts_here _ _ T) as Q. destruct (forced i); [specialize (Q eq_refl)|clear Q].
  { apply simple_claim with (c := VFloat x); [reflexivity| |intros R g a E; constructor; exact E].
    intros t Ht Hr. destruct t; try absurd_holds Ht. destruct Ht as [-> Hk]. split; [exact Logic.I|]. intros n st a E. cbn [Unmarshal.unm indirect step_scalar]. rewrite with_mem_id.
    rewrite float_from_text by exact (proj1 Q).
    destruct (Z.eq_dec bit0 32) as [e|e]; [subst bit0; rewrite (set_float_single x (Hk eq_refl))|rewrite (set_float64 bit0 x e)]; reflexivity. }
  apply simple_claim with (c := VFloat x); [reflexivity| |intros R g a E; constructor; exact E].
  intros t Ht Hr. destruct t; try absurd_holds Ht. destruct Ht as [-> Hk]. split; [exact Logic.I|]. intros n st a E. cbn [Unmarshal.unm indirect step_scalar step_float]. rewrite with_mem_id.
  destruct (Z.eq_dec bit0 32) as [e|e]; [subst bit0; rewrite (set_float_single x (Hk eq_refl))|rewrite (set_float64 bit0 x e)]; reflexivity.
Qed.

Lemma string_claim own s : claim own (GString s) (JString s).
Proof.
  apply simple_claim with (c := VString s); [reflexivity| |intros R g a E; constructor; exact E].
  intros t Ht _. destruct t; try destruct Ht. split; [exact Logic.I|]. intros n st a E. cbn [Unmarshal.unm indirect step_scalar step_string]. rewrite with_mem_id. reflexivity.
Qed.

Lemma tri_claim own b : claim own (GTri (Some b)) (JBool b).
Proof.
  apply simple_claim with (c := VString (if b then txt_true else txt_false)); [reflexivity| |intros R g a E; constructor; exact E].
  intros t Ht _. destruct t; try destruct Ht. split; [exact Logic.I|]. intros n st a E. cbn [Unmarshal.unm indirect step_scalar step_bool]. rewrite with_mem_id. reflexivity.
Qed.

Lemma time_claim own o : claim own (GTime o) (JString (match o with Some s => s | None => [] end)).
Proof.
  apply simple_claim with (c := VTime o); [reflexivity| |intros R g a E; constructor; exact E].
  intros t Ht _. destruct t; try (destruct o; exfalso; exact Ht). split; [exact Logic.I|]. intros n st a E. cbn [Unmarshal.unm indirect step_scalar step_string].
  destruct o as [s|]; [|reflexivity]. destruct Ht as [N P]. destruct s; [congruence|]. rewrite P. reflexivity.
Qed.

(** ** Pointers to basic types *)

Lemma basic_simple t : basic t -> simple t.
Proof. destruct t; cbn; tauto. Qed.
Lemma basic_named t : basic t -> named t = t.
Proof. destruct t; cbn; tauto. Qed.
Lemma basic_zalloc t m : basic t -> zalloc (resolve env t) m = (m ++ [zero_cell t], length m).
Proof. destruct t; cbn; tauto. Qed.
Lemma basic_restorable t : restorable (TPtr t) -> basic t -> restorable t.
Proof. destruct t; cbn; tauto. Qed.

Lemma holds_ptr v t : basic t -> holds v (TPtr t) -> ~ is_nil v -> exists s, v = GPtr (Some s) /\ nth_error types s = Some (named t).
Proof.
  intros Hb H N. destruct v as [| | | |[]|[]|[]| |[]| |[s|]|[]|[]|[]| | |]; try absurd_holds H; try (exfalso; exact (N Logic.I)); try absurd_holds H; [exists s; split; [reflexivity|exact (holds_ptr_type s t H)]|].
  destruct t; try absurd_holds H; exfalso; exact Hb.
Qed.

(* What is written at the end of the pointers. *)
Definition scalar_value (v : gval) (c : vcell) : Prop :=
  match v with
  | GBool b => c = VBool b | GInt _ z => c = VInt z | GFloat _ x => c = VFloat x | GString s => c = VString s
  | GTri (Some b) => c = VString (if b then txt_true else txt_false)
  | _ => False
  end.

Lemma scalar_step own i v j t : texts i v -> encodes stg omit f own i v j -> holds v t -> restorable t -> basic t -> (forall t', t <> TPtr t') -> ~ is_nil v ->
  exists c, step_scalar match_us match_eu to_bool parse_time j t = Write c /\ scalar_value v c /\ events j = [] /\
    match j with JInt _ | JBool _ | JFloat _ _ | JString _ => True | _ => False end.
Proof.
  intros Hf E Ht Hr Hb Np Nn. pose proof (texts_here _ _ Hf) as Q. clear Hf. destruct E; try contradiction; cbn zeta; try (exfalso; eapply no_text; [exact Q|eassumption..]); try congruence;
    try (destruct t; try absurd_holds Ht; try (exfalso; exact Hb); try (exfalso; eapply Np; reflexivity));
    try (match goal with x : option bytes |- _ => destruct x; exfalso; exact Ht end).
  - exists (VBool b). destruct (forced i); [|repeat split; reflexivity]. cbn [step_scalar step_string]. rewrite (proj1 (Q eq_refl)). repeat split; reflexivity.
  - destruct Ht as [-> Hk]. pose proof (wrap_id k0 z) as W. exists (VInt z). destruct (forced i).
    { cbn [step_scalar]. rewrite int_from_text; [repeat split|exact Hr|exact Hk|exact (proj1 (Q eq_refl))]. }
    cbn [step_scalar step_int].
    destruct k0; cbn [SpecRestore.restorable] in Hr; rewrite (W Hr Hk); repeat split; reflexivity.
  - destruct Ht as [-> Hk]. exists (VFloat x). destruct (forced i).
    { cbn [step_scalar]. rewrite float_from_text by exact (proj1 (Q eq_refl)).
      destruct (Z.eq_dec bit0 32) as [e|e]; [subst bit0; rewrite (set_float_single x (Hk eq_refl))|rewrite (set_float64 bit0 x e)]; repeat split; reflexivity. }
    cbn [step_scalar step_float].
    destruct (Z.eq_dec bit0 32) as [e|e]; [subst bit0; rewrite (set_float_single x (Hk eq_refl))|rewrite (set_float64 bit0 x e)]; repeat split; reflexivity.
  - eexists; repeat split; reflexivity.
  - eexists; repeat split; reflexivity.
Qed.

Lemma scalar_shows R g v c a : scalar_value v c -> g a = Some c -> shows R g v a.
Proof. destruct v as [| | | |[]| | | | | | | | | | | |]; cbn; intros H E; try contradiction; subst; constructor; exact E. Qed.

Lemma encodes_ptr own i s j t : encodes stg omit f own i (GPtr (Some s)) j -> nth_error types s = Some t -> ~ dict_type t ->
  (forall n, j = JPtr n -> exists s' tb, f n = Some s' /\ nth_error types s' = Some tb /\ dict_type tb) ->
  exists x, nth_error stg s = Some x /\ encodes stg omit f (s :: own) i x j.
Proof.
  intros E Et Nd Hr. inversion E; subst; try (exfalso; assumption).
  - destruct (Hr n eq_refl) as (s' & tb & Ef & Et' & D). exfalso. apply Nd. congruence.
  - eauto.
Qed.

Lemma store_object s t : nth_error types s = Some t -> exists x, nth_error stg s = Some x /\ holds x t /\ ~ is_nil x /\ proper t /\ restorable t.
Proof.
  intros Et. destruct Hst as (F & Nn & P). destruct (Forall2_nth _ _ _ _ _ F Et) as (x & Ex & Hx). exists x. split; [exact Ex|]. split; [exact Hx|].
  rewrite Forall_forall in Nn, P. split; [apply Nn; eapply nth_error_In; exact Ex|apply P; eapply nth_error_In; exact Et].
Qed.

Lemma basic_dict t : basic t -> ~ dict_type t.
Proof. destruct t; cbn; tauto. Qed.

Lemma chain t : basic t -> restorable t -> forall own i v j, texts i v -> encodes stg omit f own i v j -> holds v t -> ~ is_nil v ->
  (forall n, j = JPtr n -> exists s' tb, f n = Some s' /\ nth_error types s' = Some tb /\ dict_type tb) ->
  events j = [] /\
  forall m a φ, nth_error m a = Some (zero_cell t) ->
  exists m1 e c φ' N, indirect env t a m = (m1, None) /\ indirect env t a m1 = (m1, None) /\ kept a (S a) m m1 /\
    (forall n ss, (N <= n)%nat -> unm n {| u_mem := m1; u_sess := ss |} t a j = UOk {| u_mem := mwrite m1 e c; u_sess := ss |} None) /\
    incl φ φ' /\ kept a (S a) m (mwrite m1 e c) /\ pairs_ok (length m) (mwrite m1 e c) φ φ' /\
    shows (rel φ') (part_of a (S a) (length m) (mwrite m1 e c)) v a.
Proof.
  induction t as [t Ht0|t IH|k t IH|t IH|t IH|t IH|n0 fs IH] using gty_ind'; intros Hb Hr own i v j Hf E Ht Nn Hj; try contradiction.
  - (* a scalar *)
    assert (Np : forall t', t <> TPtr t') by (intros t' ->; contradiction).
    destruct (scalar_step own i v j t Hf E Ht Hr Hb Np Nn) as (c & W & Sc & Ev & Ks). split; [exact Ev|].
    intros m a φ Ea. exists m, a, c, φ, 1%nat.
    assert (In_ : forall m, indirect env t a m = (m, None)) by (destruct t; try contradiction; reflexivity).
    split; [apply In_|]. split; [apply In_|]. split; [apply kept_refl|]. split; [|split; [apply incl_refl|split; [apply kept_write; lia|split; [intros s b I; left; exact I|]]]].
    + intros [|n] ss L; [lia|]. destruct j; try contradiction; cbn [Unmarshal.unm]; rewrite ?In_, ?W; cbn [u_mem u_sess with_mem]; try reflexivity.
      destruct t; try contradiction; reflexivity.
    + eapply scalar_shows; [exact Sc|]. apply part_in; [left; lia|]. apply mwrite_same. eapply nth_error_lt; exact Ea.
  - (* a pointer *)
    cbn [basic] in Hb.
    assert (Np : forall t', TPtr t <> TPtr t' -> True) by auto. clear Np.
    destruct (holds_ptr v t Hb Ht Nn) as (s & -> & Ht'). clear Ht. rename Ht' into Ht. assert (Et : nth_error types s = Some t) by (rewrite <- (basic_named t Hb); exact Ht).
    destruct (encodes_ptr own i s j t E Et (basic_dict t Hb) Hj) as (x & Ex & E').
    destruct (store_object s t Et) as (x' & Ex' & Hx & Nx & _). assert (x' = x) by congruence. subst x'.
    apply (texts_ptr i s x Ex) in Hf. destruct (IH Hb (basic_restorable t Hr Hb) (s :: own) i x j Hf E' Hx Nx Hj) as [Ev G]. split; [exact Ev|].
    intros m a φ Ea. assert (La : (a < length m)%nat) by (eapply nth_error_lt; exact Ea).
    set (b := length m). set (m0 := mwrite (m ++ [zero_cell t]) a (VPtr (Some b))).
    assert (L0 : length m0 = S b) by (subst m0 b; rewrite mwrite_length, app_length; cbn; lia).
    assert (Eb : nth_error m0 b = Some (zero_cell t)) by (subst m0; rewrite mwrite_other by (subst b; lia); apply nth_error_last).
    assert (Ea0 : nth_error m0 a = Some (VPtr (Some b))) by (subst m0; apply mwrite_same; rewrite app_length; lia).
    assert (K0 : kept a (S a) m m0).
    { split; [lia|]. intros y Ly Ny. subst m0. rewrite mwrite_other by lia. apply nth_error_app1, Ly. }
    destruct (G m0 b φ Eb) as (m1 & e & c & φ' & N & I1 & I2 & K1 & U & Hi & K2 & P2 & Sh).
    assert (Ea1 : nth_error m1 a = Some (VPtr (Some b))) by (destruct K1 as [_ K1]; rewrite K1 by (subst b; lia); exact Ea0).
    assert (Ea2 : nth_error (mwrite m1 e c) a = Some (VPtr (Some b))) by (destruct K2 as [_ K2]; rewrite K2 by (subst b; lia); exact Ea0).
    exists m1, e, c, ((s, b) :: φ'), (S N). split; [|split; [|split; [|split; [|split; [|split; [|split]]]]]].
    + cbn [indirect]. rewrite Ea. cbn [zero_cell]. rewrite (basic_zalloc t m Hb). exact I1.
    + cbn [indirect]. rewrite Ea1. exact I2.
    + apply (kept_new a (S a) b (S b) m m0 m1 K0 K1). subst b; lia.
    + intros [|n] ss Ln; [lia|]. assert (Un : unm n {| u_mem := m1; u_sess := ss |} (resolve env t) b j = UOk {| u_mem := mwrite m1 e c; u_sess := ss |} None).
      { assert (resolve env t = t) as -> by (destruct t; try contradiction; reflexivity). apply U. lia. }
      clear - Un Ea1 I2 E' Ev Hb Hx Hf Nx Hj Hst.
      assert (Ks : match j with JInt _ | JBool _ | JFloat _ _ | JString _ => step_scalar match_us match_eu to_bool parse_time j (TPtr t) = Into t | _ => False end).
      { clear - E' Hb Hx Hf Nx Hj Hst. assert (Et' : exists o i x, encodes stg omit f o i x j /\ holds x t /\ texts i x /\ ~ is_nil x) by (do 3 eexists; split; [|split; [|split]]; eassumption). clear E' Hx Hf Nx x i s own.
        revert Hb Et'. induction t as [t Ht0|t IH|k t IH|t IH|t IH|t IH|n0 fs IH] using gty_ind'; intros Hb (o & ix & x & E & Hx & Hf & Nx); try contradiction.
        - pose proof (texts_here _ _ Hf) as Q. clear Hf. destruct E; try contradiction; cbn zeta; try (exfalso; eapply no_text; [exact Q|eassumption..]); try congruence; try reflexivity; try (destruct (forced i); reflexivity);
            destruct t; try contradiction; try (destruct t0; contradiction); try absurd_holds Hx.
        - cbn [basic] in Hb. destruct (holds_ptr x t Hb Hx Nx) as (s & -> & Ht').
          assert (Et : nth_error types s = Some t) by (rewrite <- (basic_named t Hb); exact Ht').
          destruct (encodes_ptr o ix s j t E Et (basic_dict t Hb) Hj) as (y & Ey & E').
          destruct (store_object s t Et) as (x' & Ex' & Hx' & Nx' & _). assert (x' = y) by congruence. subst x'.
          assert (Q : exists (o : list addr) i x, encodes stg omit f o i x j /\ holds x t /\ texts i x /\ ~ is_nil x) by (exists (s :: o), ix, y; split; [|split; [|split]]; try assumption; exact (texts_ptr ix s y Ey Hf)). specialize (IH Hb Q). destruct j; try contradiction; reflexivity. }
      destruct j; try contradiction; cbn [Unmarshal.unm indirect u_mem]; rewrite Ea1, I2; cbn [with_mem u_mem u_sess]; rewrite Ks; cbn [u_mem]; rewrite Ea1; exact Un.
    + apply incl_tl, Hi.
    + apply (kept_new a (S a) b (S b) m m0 _ K0 K2). subst b; lia.
    + assert (Shx : shows (rel ((s, b) :: φ')) (part_of 0 0 (length m) (mwrite m1 e c)) x b).
      { refine (shows_kept _ _ b (S b) (length m0) _ 0 0 _ 0 0 (length m) _ _ (kept_refl 0 0 _) _ _ _ _ Sh); [intros; right; assumption|intros; lia|intros; subst b; lia|lia]. }
      intros s0 b0 [I|I]; [injection I as <- <-; right; exists x; split; [exact Ex|exact Shx]|].
      destruct (P2 s0 b0 I) as [I'|(x0 & Ex0 & S0)]; [left; exact I'|right]. exists x0. split; [exact Ex0|].
      eapply shows_above; [exact S0|apply (kept_refl 0 0)|intros; right; assumption|apply Nat.le_0_l|subst b; lia].
    + eapply sh_ptr; [apply part_in; [left; lia|exact Ea2]|left; reflexivity].
Qed.

Lemma chain_claim own i s j x : texts i (GPtr (Some s)) -> nth_error stg s = Some x -> encodes stg omit f (s :: own) i x j ->
  forall t, holds (GPtr (Some s)) t -> restorable t -> basic t ->
  forall seen st φ lo a, ordered seen (events j) -> fresh (u_mem st) t lo a -> sess_ok (before j seen) φ (u_sess st) ->
  exists N st' φ', (forall n, (N <= n)%nat -> unm n st t a j = UOk st' None) /\
    done lo (S a) (after seen (events j)) st φ st' φ' /\ shows (rel φ') (part_of lo (S a) (length (u_mem st)) (u_mem st')) (GPtr (Some s)) a.
Proof.
  intros Hf Ex E t Ht Hr Hb seen st φ lo a Ho F Hs.
  apply (fresh_simple _ _ _ _ (basic_simple t Hb)) in F as (-> & Ea & La).
  assert (E' : encodes stg omit f own i (GPtr (Some s)) j) by (eapply E_ptr; eassumption).
  assert (Hj : forall n, j = JPtr n -> exists s' tb, f n = Some s' /\ nth_error types s' = Some tb /\ dict_type tb).
  { intros n ->. cbn in Ho. destruct Ho as [Ho _]. destruct Hs as [_ Hs]. destruct (Hs n Ho) as (s' & b & tb & _ & A1 & _ & A2 & A3). eauto. }
  destruct (chain t Hb Hr own i _ j Hf E' Ht (fun x => x) Hj) as [Ev G].
  destruct (G (u_mem st) a φ Ea) as (m1 & e & c & φ' & N & I1 & I2 & K1 & U & Hi & K2 & P2 & Sh).
  exists (S N), {| u_mem := mwrite m1 e c; u_sess := u_sess st |}, φ'. split; [|split; [|exact Sh]].
  - destruct t as [| | | | | | | | | |t| | | | | | | | | |]; try absurd_holds Ht.
    intros [|n] Ln; [lia|]. specialize (U (S n) (u_sess st) ltac:(lia)). revert U.
    destruct st as [m ss]. cbn [u_mem u_sess] in *. rename I1 into J1. rename I2 into J2.
    assert (Ks : match j with JInt _ | JBool _ | JFloat _ _ | JString _ => True | _ => False end).
    { cbn [basic] in Hb. apply holds_ptr_type in Ht. rewrite (basic_named t Hb) in Ht. clear - Hf E Ht Hb Hj Hst Ex.
      assert (Q : exists (o : list addr) i x, encodes stg omit f o i x j /\ holds x t /\ texts i x /\ ~ is_nil x).
      { destruct (store_object s t Ht) as (x' & Ex' & Hx' & Nx' & _). assert (x' = x) by congruence. subst x'. apply (texts_ptr i s x Ex) in Hf. do 3 eexists; split; [|split; [|split]]; eassumption. }
      clear E Ht Hf Ex x i own s. revert Hb Q. induction t as [t Ht0|t IH|k t IH|t IH|t IH|t IH|n0 fs IH] using gty_ind'; intros Hb (o & ix & x & E & Hx & Hf & Nx); try contradiction.
      - pose proof (texts_here _ _ Hf) as Q'. clear Hf. destruct E; try contradiction; cbn zeta; try (exfalso; eapply no_text; [exact Q'|eassumption..]); try congruence; try exact Logic.I; try (destruct (forced i); exact Logic.I);
          destruct t; try contradiction; try (destruct t0; contradiction); try absurd_holds Hx.
      - cbn [basic] in Hb. destruct (holds_ptr x t Hb Hx Nx) as (s & -> & Ht').
        assert (Et : nth_error types s = Some t) by (rewrite <- (basic_named t Hb); exact Ht').
        destruct (encodes_ptr o ix s j t E Et (basic_dict t Hb) Hj) as (y & Ey & E').
        destruct (store_object s t Et) as (x' & Ex' & Hx' & Nx' & _). assert (x' = y) by congruence. subst x'.
        assert (Q : exists (o : list addr) i x, encodes stg omit f o i x j /\ holds x t /\ texts i x /\ ~ is_nil x) by (exists (s :: o), ix, y; split; [|split; [|split]]; try assumption; exact (texts_ptr ix s y Ey Hf)). exact (IH Hb Q). }
    destruct j; try contradiction; cbn [Unmarshal.unm u_mem]; rewrite J1, J2; exact (fun x => x).
  - rewrite Ev. cbn [after]. split; [exact Hi|]. split; [exact K2|]. split; [exact P2|]. cbn [u_sess].
    assert (B : before j seen = seen) by (destruct j; try reflexivity; cbn in Ev |- *; destruct (0 <? nid); [discriminate|reflexivity]).
    rewrite B in Hs. eapply sess_more; [apply incl_refl|exact Hi|exact Hs].
Qed.

(** ** References *)

Lemma ref_claim own s n : f n = Some s -> claim own (GPtr (Some s)) (JPtr n).
Proof.
  intros Ef t Ht Hp Hr seen st φ lo a Ho F Hs _.
  destruct t as [| | | | | | | | | |t| | | | | | | | | |]; try absurd_holds Ht. apply holds_ptr_type in Ht.
  apply (fresh_simple _ (TPtr t) _ _ Logic.I) in F as (-> & Ea & La). cbn in Ho. destruct Ho as [Ho _].
  cbn [before] in Hs. destruct (proj2 Hs n Ho) as (s' & b & tb & Hn & A1 & A2 & A3 & A4). assert (s' = s) by congruence. subst s'.
  cbn [SpecRestore.holds] in Ht. assert (tb = named t) by congruence. subst tb.
  assert (Te : ty_eqb t (named t) = true) by (destruct t; try apply ty_eqb_refl; cbn; apply Nat.eqb_refl).
  exists 1%nat, (with_mem st (mwrite (u_mem st) a (VPtr (Some b)))), φ. split; [|split].
  - intros [|k] Lk; [lia|]. cbn [Unmarshal.unm]. unfold set_pointer_value. rewrite Hn. cbn [set_pointer]. rewrite Te. reflexivity.
  - cbn [events after]. apply write_done; assumption.
  - eapply sh_ptr; [apply part_written, La|exact A2].
Qed.

(** ** Pointers to structs, maps, slices and arrays *)

Definition composite (t : gty) : Prop := match t with TNamed _ | TSlice _ | TArray _ _ | TMap _ => True | _ => False end.

Lemma ptr_cases t : restorable (TPtr t) -> basic t \/ composite t \/ t = TStd \/ t = TTime.
Proof. destruct t; cbn; tauto. Qed.

Lemma composite_json own i x t j : composite t -> holds x (named t) -> ~ is_nil x -> texts i x -> encodes stg omit f own i x j ->
  if is_list_kind t then exists l, j = JArray l else exists nid kvs, j = JDict nid kvs.
Proof.
  intros C H N Hf E. pose proof (texts_here _ _ Hf) as Q. clear Hf. destruct t; try contradiction; destruct E; try contradiction; cbn zeta; try (exfalso; eapply no_text; [exact Q|eassumption..]); try congruence; try absurd_holds H;
    try (cbn; eauto; fail); try (match goal with o : option bytes |- _ => destruct o; contradiction end).
Qed.

(* In Go a pointer to such a type has its methods too, so it is a [GStd] itself. *)
Lemma ptr_std_claim own i s j x : texts i (GPtr (Some s)) -> nth_error stg s = Some x -> encodes stg omit f (s :: own) i x j -> nth_error types s = Some TStd ->
  forall seen st φ lo a, fresh (u_mem st) (TPtr TStd) lo a -> sess_ok (before j seen) φ (u_sess st) ->
  exists N st' φ', (forall n, (N <= n)%nat -> unm n st (TPtr TStd) a j = UOk st' None) /\
    done lo (S a) (after seen (events j)) st φ st' φ' /\ shows (rel φ') (part_of lo (S a) (length (u_mem st)) (u_mem st')) (GPtr (Some s)) a.
Proof.
  intros Hf Ex E Et seen st φ lo a F Hs. destruct (store_object s _ Et) as (x' & Ex' & Hx & _). assert (x' = x) by congruence. subst x'.
  destruct x as [| | | |[]|[]|[]| |[]| |[]|[]|[]|[]| |j0|]; try absurd_holds Hx. assert (P : pure_json j0) by exact Hx.
  assert (j = j0) by (inversion E; subst; try contradiction; congruence). subst j0.
  pose proof (texts_std _ _ (texts_ptr i s _ Ex Hf)) as So. assert (Ev : events j = []) by (apply pure_events; apply P).
  apply (fresh_simple _ (TPtr TStd) _ _ Logic.I) in F as (-> & Ea & La).
  destruct (std_ptr st a TStd j _ P (or_introl (conj eq_refl (conj So eq_refl))) Ea) as (mf & U & K & Ea' & Eb). set (b := length (u_mem st)) in *.
  exists 1%nat, (with_mem st mf), ((s, b) :: φ). split; [|split].
  - intros [|n] Ln; [lia|]. apply U.
  - rewrite Ev. cbn [after]. split; [apply incl_tl, incl_refl|]. split; [exact K|]. split.
    + intros s0 b0 [I|I]; [|left; exact I]. injection I as <- <-. right. exists (GStd j). split; [exact Ex|]. apply sh_std. apply part_in; [right; subst b; lia|exact Eb].
    + cbn [u_sess with_mem]. eapply sess_more; [apply incl_refl|apply incl_tl, incl_refl|]. assert (before j seen = seen) as <-; [|exact Hs]. destruct j; try reflexivity. cbn in Ev |- *. destruct (0 <? nid); [discriminate|reflexivity].
  - cbn [u_mem with_mem]. eapply sh_ptr; [apply part_in; [left; lia|exact Ea']|left; reflexivity].
Qed.

Lemma ptr_claim own i s j x : texts i (GPtr (Some s)) -> nth_error stg s = Some x -> encodes stg omit f (s :: own) i x j -> claim (s :: own) x j ->
  claim own (GPtr (Some s)) j.
Proof.
  intros Hf Ex E IH t Ht Hp Hr seen st φ lo a Ho F Hs Pl.
  destruct t as [| | | | | | | | | |t| | | | | | | | | |]; try absurd_holds Ht.
  destruct (ptr_cases t Hr) as [Hb|[C|[->| ->]]]; [eapply chain_claim; eassumption| |eapply ptr_std_claim; eassumption|destruct Ht].
  destruct Pl as [->|Pl]; [|destruct t; contradiction].
  apply holds_ptr_type in Ht. destruct (store_object s _ Ht) as (x' & Ex' & Hx & Nx & Px & Rx). assert (x' = x) by congruence. subst x'.
  pose proof (composite_json [s] i x t j C Hx Nx (texts_ptr i s x Ex Hf) E) as Hj.
  apply (fresh_simple _ (TPtr t) _ _ Logic.I) in F as (-> & Ea & La). cbn [zero_cell] in Ea.
  destruct st as [m ss]. cbn [u_mem u_sess] in *.
  destruct (zalloc_fresh (named t) m) as (d & Ed & Ld & Fb). set (b := snd (zalloc (named t) m)) in *.
  assert (Lb : (length m <= b < length (m ++ d))%nat) by (apply (proj1 (fresh_bounds (m ++ d))) in Fb; exact Fb).
  set (m1 := mwrite (m ++ d) a (VPtr (Some b))).
  assert (L1 : length m1 = S b) by (subst m1; rewrite mwrite_length; lia).
  assert (F1 : fresh m1 (named t) (length m) b).
  { apply (proj1 (fresh_kept (m ++ d) m1) _ _ _ Fb). intros y Hy. subst m1. apply mwrite_other. lia. }
  assert (K0 : kept a (S a) m m1).
  { split; [lia|]. intros y Ly Ny. subst m1. rewrite mwrite_other by lia. apply nth_error_app1, Ly. }
  assert (Ea1 : nth_error m1 a = Some (VPtr (Some b))) by (subst m1; apply mwrite_same; lia).
  set (ss1 := match j with JDict nid _ => if 0 <? nid then put_node ss nid {| nv_value := Some (a, TPtr t); nv_targets := [] |} else ss | _ => ss end).
  assert (Hs1 : sess_ok (before j seen) ((s, b) :: φ) ss1).
  { apply (sess_more _ (before j seen) _ ((s, b) :: φ)) in Hs; [|apply incl_refl|apply incl_tl, incl_refl].
    subst ss1. destruct j as [| | | | | |nid kvs|]; try exact Hs. cbn [before] in Hs |- *. destruct (0 <? nid); [|exact Hs]. destruct Hs as [Q Hs]. split.
    - intros k nv. cbn [put_node find_node]. destruct (nid =? k); [intros Eq; inversion Eq; reflexivity|apply Q].
    - intros k I. cbn [put_node find_node]. destruct (Z.eqb_spec nid k) as [->|_]; [|apply Hs, I]. exfalso.
      apply filter_In in I as [_ I]. rewrite Z.eqb_refl in I. discriminate. }
  assert (Pl1 : place [s] x ((s, b) :: φ) (named t) b).
  { destruct x as [| | | | | | | | | |o|o| | | | |]; try exact Logic.I; try (right; exists s; split; [reflexivity|split; [left; reflexivity|exact Ht]]);
    destruct t; try contradiction; absurd_holds Hx. }
  destruct (IH (named t) Hx Px Rx seen {| u_mem := m1; u_sess := ss1 |} ((s, b) :: φ) (length m) b Ho F1 Hs1 Pl1) as (N & st' & φ' & U & D & Sh).
  cbn [u_mem] in *.
  assert (Eind : indirect env (TPtr t) a m = (m1, None)).
  { cbn [indirect]. rewrite Ea. change (resolve env t) with (named t). rewrite (surjective_pairing (zalloc (named t) m)), Ed. fold b. fold m1. destruct t; try contradiction; reflexivity. }
  exists (S N), st', φ'. split; [|split].
  - intros [|n] Ln; [lia|]. specialize (U n ltac:(lia)).
    destruct (is_list_kind t) eqn:Lk.
    + destruct Hj as [l ->]. cbn [Unmarshal.unm u_mem]. rewrite Eind. cbn [with_mem u_mem u_sess]. rewrite Lk, Ea1. exact U.
    + destruct Hj as (nid & kvs & ->). cbn [Unmarshal.unm u_mem].
      assert (Sv : (if 0 <? nid then save_node_value {| u_mem := m; u_sess := ss |} nid a (TPtr t) else UOk {| u_mem := m; u_sess := ss |} tt) = UOk {| u_mem := m; u_sess := ss1 |} tt).
      { subst ss1. cbv beta iota. destruct (0 <? nid); [|reflexivity]. unfold save_node_value. cbn [u_sess u_mem]. destruct (find_node ss nid) as [nv|] eqn:En; [|reflexivity].
        rewrite (proj1 Hs nid nv En). reflexivity. }
      rewrite Sv. cbn [ubind u_mem]. rewrite Eind. cbn [with_mem u_mem u_sess]. assert (is_dict_kind t = true) as -> by (destruct t; try contradiction; try discriminate; reflexivity). rewrite Ea1. exact U.
  - destruct D as (D1 & D2 & D3 & D4). cbn [u_mem] in *. split; [|split; [|split; [|exact D4]]].
    + intros p I. apply D1. right. exact I.
    + cbn [u_mem]. apply (kept_new a (S a) (length m) (S b) m m1 _ K0 D2). lia.
    + cbn [u_mem]. intros s0 b0 I. destruct (D3 s0 b0 I) as [[I'|I']|(x0 & Ex0 & S0)].
      * injection I' as <- <-. right. exists x. split; [exact Ex|].
        refine (shows_kept _ _ (length m) (S b) (length m1) _ 0 0 _ 0 0 (length m) _ _ (kept_refl 0 0 _) _ _ _ _ Sh); [auto|intros; lia|intros; lia|lia].
      * left. exact I'.
      * right. exists x0. split; [exact Ex0|]. eapply shows_above; [exact S0|apply (kept_refl 0 0)|auto|apply Nat.le_0_l|lia].
  - destruct D as (D1 & [D2 D2'] & _). cbn [u_mem] in *. eapply sh_ptr; [|apply D1; left; reflexivity]. apply part_in; [left; lia|]. rewrite D2' by lia. exact Ea1.
Qed.

(** ** Interfaces holding pointers to structs *)

Lemma holds_iface v t : holds (GIface (Some v)) t -> exists s k n, v = GPtr (Some s) /\ t = TSer k (Makes n) /\ nth_error types s = Some (TStruct n (env n)).
Proof.
  intros H. destruct t as [| | | | | | | | | | | | | | | | | | | |k fa]; try absurd_holds H. destruct v as [| | | | | | | | | |[s|]| | | | | |]; try absurd_holds H.
  destruct fa as [| |n]; try absurd_holds H. exists s, k, n. auto.
Qed.

Lemma ser_ref_claim own s n : f n = Some s -> claim own (GIface (Some (GPtr (Some s)))) (JPtr n).
Proof.
  intros Ef t Ht Hp Hr seen st φ lo a Ho F Hs _. destruct (holds_iface _ _ Ht) as (s0 & k & c & E0 & -> & Et). injection E0 as <-.
  apply (fresh_simple _ (TSer k (Makes c)) _ _ Logic.I) in F as (-> & Ea & La). cbn in Ho. destruct Ho as [Ho _].
  cbn [before] in Hs. destruct (proj2 Hs n Ho) as (s' & b & tb & Hn & A1 & A2 & A3 & A4). assert (s' = s) by congruence. subst s'.
  assert (tb = TStruct c (env c)) by congruence. subst tb.
  exists 1%nat, (with_mem st (mwrite (u_mem st) a (VIface (Some (DynPtr b (TStruct c (env c))))))), φ. split; [|split].
  - intros [|q] Lk; [lia|]. cbn [Unmarshal.unm]. unfold set_pointer_value. rewrite Hn. cbn [set_pointer ty_eqb]. rewrite Nat.eqb_refl. reflexivity.
  - cbn [events after]. apply write_done; assumption.
  - eapply sh_iface; [apply part_written, La|exact A2].
Qed.

Lemma ser_claim own i s j x : texts i (GPtr (Some s)) -> nth_error stg s = Some x -> encodes stg omit f (s :: own) i x j -> claim (s :: own) x j ->
  claim own (GIface (Some (GPtr (Some s)))) j.
Proof.
  intros Hf Ex E IH t Ht Hp Hr seen st φ lo a Ho F Hs Pl. destruct (holds_iface _ _ Ht) as (s0 & k & c & E0 & -> & Et). injection E0 as <-.
  destruct Pl as [->|Pl]; [|contradiction].
  destruct (store_object s _ Et) as (x' & Ex' & Hx & Nx & Px & Rx). assert (x' = x) by congruence. subst x'.
  destruct (composite_json [s] i x (TNamed c) j Logic.I Hx Nx (texts_ptr i s x Ex Hf) E) as (nid & kvs & ->).
  apply (fresh_simple _ (TSer k (Makes c)) _ _ Logic.I) in F as (-> & Ea & La). cbn [zero_cell] in Ea.
  destruct st as [m ss]. cbn [u_mem u_sess] in *. set (T := TStruct c (env c)) in *.
  destruct (zalloc_fresh T m) as (d & Ed & Ld & Fb). set (b := snd (zalloc T m)) in *.
  assert (Lb : (length m <= b < length (m ++ d))%nat) by (apply (proj1 (fresh_bounds (m ++ d))) in Fb; exact Fb).
  assert (K0 : kept a (S a) m (m ++ d)) by (split; [lia|]; intros y Ly _; apply nth_error_app1, Ly).
  set (ss1 := if 0 <? nid then put_node ss nid {| nv_value := Some (a, TSer k (Makes c)); nv_targets := [] |} else ss).
  assert (Hs1 : sess_ok (before (JDict nid kvs) seen) ((s, b) :: φ) ss1).
  { apply (sess_more _ (before (JDict nid kvs) seen) _ ((s, b) :: φ)) in Hs; [|apply incl_refl|apply incl_tl, incl_refl].
    subst ss1. cbn [before] in Hs |- *. destruct (0 <? nid); [|exact Hs]. destruct Hs as [Q Hs]. split.
    - intros q nv. cbn [put_node find_node]. destruct (nid =? q); [intros Eq; inversion Eq; reflexivity|apply Q].
    - intros q I. cbn [put_node find_node]. destruct (Z.eqb_spec nid q) as [->|_]; [|apply Hs, I]. exfalso.
      apply filter_In in I as [_ I]. rewrite Z.eqb_refl in I. discriminate. }
  assert (Pl1 : place [s] x ((s, b) :: φ) T b).
  { destruct x as [| | | | | | | | | |o|o| | | | |]; try exact Logic.I; try (right; exists s; split; [reflexivity|split; [left; reflexivity|exact Et]]);
      absurd_holds Hx. }
  destruct (IH T Hx Px Rx seen {| u_mem := m ++ d; u_sess := ss1 |} ((s, b) :: φ) (length m) b Ho Fb Hs1 Pl1) as (N & st' & φ' & U & D & Sh).
  cbn [u_mem] in *. set (cell := VIface (Some (DynPtr b T))).
  destruct D as (D1 & D2 & D3 & D4). cbn [u_mem] in *.
  assert (Kw : kept a (S a) (u_mem st') (mwrite (u_mem st') a cell)) by (apply kept_write; lia).
  assert (L' : (length (m ++ d) <= length (u_mem st'))%nat) by apply D2.
  exists (S N), (with_mem st' (mwrite (u_mem st') a cell)), φ'. split; [|split].
  - intros [|n] Ln; [lia|]. specialize (U n ltac:(lia)). cbn [Unmarshal.unm u_mem].
    assert (Sv : (if 0 <? nid then save_node_value {| u_mem := m; u_sess := ss |} nid a (TSer k (Makes c)) else UOk {| u_mem := m; u_sess := ss |} tt) = UOk {| u_mem := m; u_sess := ss1 |} tt).
    { subst ss1. destruct (0 <? nid); [|reflexivity]. unfold save_node_value. cbn [u_sess u_mem]. destruct (find_node ss nid) as [nv|] eqn:En; [|reflexivity].
      rewrite (proj1 Hs nid nv En). reflexivity. }
    rewrite Sv. cbn [ubind indirect u_mem with_mem]. unfold un_serial. cbn [u_mem]. cbv zeta. fold T. change (u_mem (with_mem {| u_mem := m; u_sess := ss1 |} m)) with m.
    rewrite (surjective_pairing (zalloc T m)), Ed. fold b. change (with_mem (with_mem {| u_mem := m; u_sess := ss1 |} m) (m ++ d)) with {| u_mem := m ++ d; u_sess := ss1 |}. rewrite U. cbn [ubind]. reflexivity.
  - split; [|split; [|split]].
    + intros p I. apply D1. right. exact I.
    + cbn [u_mem with_mem]. eapply kept_trans; [apply (kept_new a (S a) (length m) (S b) m (m ++ d) _ K0 D2); lia|exact Kw].
    + cbn [u_mem with_mem]. intros s0 b0 I. destruct (D3 s0 b0 I) as [[I'|I']|(x0 & Ex0 & S0)].
      * injection I' as <- <-. right. exists x. split; [exact Ex|].
        refine (shows_kept _ _ (length m) (S b) (length (m ++ d)) _ a (S a) _ 0 0 (length m) _ _ Kw _ _ _ _ Sh); [auto|intros; lia|intros; lia|lia].
      * left. exact I'.
      * right. exists x0. split; [exact Ex0|]. eapply shows_above; [exact S0|exact Kw|auto|lia|lia].
    + cbn [with_mem u_sess]. exact D4.
  - eapply sh_iface; [|apply D1; left; reflexivity]. cbn [u_mem with_mem]. apply part_in; [left; lia|]. apply mwrite_same. lia.
Qed.

(** ** Slices and arrays *)

Lemma F2_length {A C} (R : A -> C -> Prop) l l' : Forall2 R l l' -> length l = length l'.
Proof. induction 1; cbn; congruence. Qed.

Lemma elems_loop l js : Forall2 (claim []) l js -> forall t, Forall (fun v => holds v t) l -> proper t -> restorable t ->
  forall seen st φ lo hi vars, ordered seen (flat_map events js) -> fresh_run (u_mem st) (repeat t (length l)) vars lo hi -> (hi <= length (u_mem st))%nat -> sess_ok seen φ (u_sess st) ->
  exists N st' φ', (forall n, (N <= n)%nat -> un_elems (unm n) st t vars js = UOk st' None) /\
    done lo hi (after seen (flat_map events js)) st φ st' φ' /\ Forall2 (shows (rel φ') (part_of lo hi (length (u_mem st)) (u_mem st'))) l vars.
Proof.
  induction 1 as [|v j l js Hc Hcs IH]; intros t Hl Hp Hr seen st φ lo hi vars Ho Fr Lh Hs.
  - inversion Fr; subst. exists 0%nat, st, φ. split; [reflexivity|]. split; [|constructor].
    split; [apply incl_refl|]. split; [apply kept_refl|]. split; [intros s b I; left; exact I|exact Hs].
  - inversion Hl as [|? ? Hv Hl']; subst. cbn [length repeat] in Fr. inversion Fr as [|? ? x l0 ? ? F1 F2]; subst.
    cbn [flat_map] in Ho. apply ordered_app in Ho as [Ho1 Ho2].
    pose proof (proj1 (fresh_bounds _) _ _ _ F1) as B1. pose proof (proj2 (fresh_bounds _) _ _ _ _ F2) as B2.
    destruct (Hc t Hv Hp Hr seen st φ lo x Ho1 F1) as (N1 & st1 & φ1 & U1 & D1 & S1); [eapply sess_more; [apply before_incl|apply incl_refl|exact Hs]|destruct v; try exact Logic.I; left; reflexivity|].
    destruct D1 as (I1 & K1 & P1 & Se1). assert (D1 : done lo (S x) (after seen (events j)) st φ st1 φ1) by (repeat split; try assumption; apply K1 || apply Se1).
    destruct (IH t Hl' Hp Hr (after seen (events j)) st1 φ1 (S x) hi l0 Ho2) as (N2 & st2 & φ2 & U2 & D2 & S2).
    { apply (proj2 (fresh_kept (u_mem st) (u_mem st1)) _ _ _ _ F2). intros y Hy. apply K1; lia. }
    { destruct K1 as [K1 _]. lia. }
    { exact Se1. }
    exists (N1 + N2)%nat, st2, φ2. split; [|split].
    + intros n Ln. cbn [un_elems]. rewrite U1 by lia. cbn [ubind]. apply U2. lia.
    + cbn [flat_map]. rewrite after_app. eapply done_trans; [exact D1|exact D2|lia..].
    + destruct D2 as (I2 & K2 & _). constructor.
      * refine (shows_kept _ _ lo (S x) (length (u_mem st)) (u_mem st1) (S x) hi _ _ _ _ _ _ K2 _ _ _ _ S1); [intros s b; apply I2|intros; lia|intros; left; lia|lia].
      * eapply Forall2_impl_in; [|exact S2]. apply Forall_forall. intros w _ y Hw.
        refine (shows_kept _ _ (S x) hi (length (u_mem st1)) (u_mem st2) 0 0 _ _ _ _ _ _ (kept_refl 0 0 _) _ _ _ _ Hw); [auto|intros; lia|intros; left; lia|destruct K1; lia].
Qed.

Lemma holds_slice l t : holds (GSlice (Some l)) (TSlice t) -> Forall (fun v => holds v (named t)) l.
Proof. cbn. induction l as [|x l IH]; intros H; constructor; [apply H|apply IH, H]. Qed.
Lemma holds_array l n t : holds (GArray l) (TArray n t) -> length l = n /\ Forall (fun v => holds v t) l.
Proof. cbn. intros [L H]. split; [exact L|]. clear L. induction l as [|x l IH]; constructor; [apply H|apply IH, H]. Qed.
Lemma holds_map m t : holds (GMap (Some m)) (TMap t) -> sm_ok m /\ Forall (fun kv => holds (snd kv) (named t)) m.
Proof. cbn. intros [L H]. split; [exact L|]. clear L. induction m as [|[k x] l IH]; constructor; [apply H|apply IH, H]. Qed.
Lemma holds_struct fs n ts : holds (GStruct fs) (TStruct n ts) -> Forall2 (fun fv ft => fst fv = fst ft /\ holds (snd fv) (snd ft)) fs ts.
Proof. cbn. revert ts. induction fs as [|[g x] fs IH]; intros [|[g' t] ts] H; try contradiction; constructor; [split; apply H|apply IH, H]. Qed.

Lemma restorable_slice t : restorable (TSlice t) -> restorable (named t).
Proof. cbn. destruct t; try exact (fun x => x). intros _. apply Henvr. Qed.
Lemma restorable_map t : restorable (TMap t) -> restorable (named t).
Proof. cbn. destruct t; try exact (fun x => x). intros _. apply Henvr. Qed.

Lemma before_array seen js : before (JArray js) seen = seen. Proof. reflexivity. Qed.

Lemma slice_claim own l js : Forall2 (claim []) l js -> claim own (GSlice (Some l)) (JArray js).
Proof.
  intros Hc t Ht Hp Hr seen st φ lo a Ho F Hs _.
  destruct t as [| | | | | |t| | | | | | | | | | | | | |]; try absurd_holds Ht.
  apply (fresh_simple _ (TSlice t) _ _ Logic.I) in F as (-> & Ea & La). cbn [zero_cell] in Ea.
  assert (Ll : length js = length l) by (symmetry; eapply F2_length; exact Hc).
  destruct (times_fresh (named t) (length js) (u_mem st)) as (d & Ed & Fr). set (vars := snd (times (length js) (zalloc (named t)) (u_mem st))) in *.
  set (m1 := mwrite (u_mem st ++ d) a (VSlice (Some (vars, length js)))).
  assert (L1 : length m1 = length (u_mem st ++ d)) by (subst m1; apply mwrite_length).
  assert (L2 : (length (u_mem st) <= length m1)%nat) by (rewrite L1, app_length; lia).
  assert (Fr1 : fresh_run m1 (repeat (named t) (length l)) vars (length (u_mem st)) (length m1)).
  { rewrite L1, <- Ll. apply (proj2 (fresh_kept (u_mem st ++ d) m1) _ _ _ _ Fr). intros y Hy. subst m1. apply mwrite_other. lia. }
  assert (Ea1 : nth_error m1 a = Some (VSlice (Some (vars, length js)))) by (subst m1; apply mwrite_same; rewrite app_length; lia).
  assert (K0 : kept a (S a) (u_mem st) m1).
  { split; [exact L2|]. intros y Ly Ny. subst m1. rewrite mwrite_other by lia. apply nth_error_app1, Ly. }
  destruct (elems_loop l js Hc (named t) (holds_slice l t Ht) (inner_named env Henv t (proper_slice env t Hp)) (restorable_slice t Hr) seen {| u_mem := m1; u_sess := u_sess st |} φ
      (length (u_mem st)) (length m1) vars Ho Fr1 (Nat.le_refl _) Hs) as (N & st' & φ' & U & D & Sh).
  cbn [u_mem] in *. exists (S N), st', φ'. split; [|split].
  - intros [|n] Ln; [lia|]. cbn [Unmarshal.unm indirect]. rewrite with_mem_id.
    unfold resize. rewrite Ea. cbn [orb]. change (resolve env t) with (named t). rewrite (surjective_pairing (times (length js) (zalloc (named t)) (u_mem st))), Ed. fold vars. fold m1.
    apply U. lia.
  - eapply done_after; [exact K0|exact D|]. intros y Hy. right. lia.
  - destruct D as (_ & [D2 D2'] & _). cbn [u_mem] in *. eapply sh_slice.
    + apply part_in; [left; lia|]. rewrite D2' by lia. exact Ea1.
    + assert (Lv : length js = length vars) by (apply run_length in Fr; rewrite repeat_length in Fr; lia). rewrite Lv, firstn_all.
      eapply Forall2_impl_in; [|exact Sh]. apply Forall_forall. intros w _ y Hw.
      refine (shows_kept _ _ _ _ _ _ 0 0 _ _ _ _ _ _ (kept_refl 0 0 _) _ _ _ _ Hw); [auto|intros; lia|intros; right; lia|lia].
Qed.

Lemma array_claim own l js : Forall2 (claim []) l js -> claim own (GArray l) (JArray js).
Proof.
  intros Hc t Ht Hp Hr seen st φ lo a Ho F Hs _.
  destruct t as [| | | | | | |k t| | | | | | | | | | | | |]; try absurd_holds Ht.
  inversion F as [? ? vars ? ? Ea Fr| |]; subst; [|contradiction].
  assert (La : (a < length (u_mem st))%nat) by (eapply nth_error_lt; exact Ea).
  assert (Ll : length js = length l) by (symmetry; eapply F2_length; exact Hc).
  destruct (holds_array l k t Ht) as [Lk Hl]. subst k.
  destruct (elems_loop l js Hc t Hl Hp Hr seen st φ lo a vars Ho Fr ltac:(lia) Hs) as (N & st' & φ' & U & D & Sh).
  exists (S N), st', φ'. split; [|split].
  - intros [|n] Ln; [lia|]. cbn [Unmarshal.unm indirect]. rewrite with_mem_id, Ll, Nat.eqb_refl. cbn [negb]. unfold elems_of. rewrite Ea. apply U. lia.
  - destruct D as (D1 & D2 & D3 & D4). split; [exact D1|]. split; [eapply kept_more; [apply Nat.le_refl|apply Nat.le_succ_diag_r|exact D2]|]. split; assumption.
  - destruct D as (_ & [D2 D2'] & _). pose proof (proj2 (fresh_bounds _) _ _ _ _ Fr). eapply sh_array.
    + apply part_in; [left; lia|]. rewrite D2' by lia. exact Ea.
    + eapply Forall2_impl_in; [|exact Sh]. apply Forall_forall. intros w _ y Hw.
      refine (shows_kept _ _ _ _ _ _ 0 0 _ _ _ _ _ _ (kept_refl 0 0 _) _ _ _ _ Hw); [auto|intros; lia|intros; left; lia|lia].
Qed.

(** ** Maps *)

Lemma done_then lo hi seen st φ st' φ' m : done lo hi seen st φ st' φ' -> kept lo hi (u_mem st') m -> (hi <= length (u_mem st))%nat -> done lo hi seen st φ (with_mem st' m) φ'.
Proof.
  intros (I & K & P & Se) K' H. split; [exact I|]. split; [eapply kept_trans; eassumption|]. split; [|exact Se]. cbn [with_mem u_mem]. intros s b Is.
  destruct (P s b Is) as [I'|(x & Ex & Sx)]; [left; exact I'|]. right. exists x. split; [exact Ex|]. eapply shows_above; [exact Sx|exact K'|auto|exact H|apply Nat.le_refl].
Qed.

Lemma members_loop rest ps : Forall2 (fun kv kj => fst kv = fst kj /\ claim [] (snd kv) (snd kj)) rest ps -> forall t, Forall (fun kv => holds (snd kv) t) rest -> proper t -> restorable t ->
  forall seen st φ d acc vars, sm_ok (acc ++ rest) -> ordered seen (flat_map (fun kj => events (snd kj)) ps) -> nth_error (u_mem st) d = Some (VMapData vars) -> sess_ok seen φ (u_sess st) ->
  Forall2 (fun kv kx => fst kv = fst kx /\ shows (rel φ) (part_of 0 0 (S d) (u_mem st)) (snd kv) (snd kx)) acc vars ->
  exists N st' φ' vars', (forall n, (N <= n)%nat -> un_members (unm n) st t d ps = UOk st' None) /\
    done d (S d) (after seen (flat_map (fun kj => events (snd kj)) ps)) st φ st' φ' /\ nth_error (u_mem st') d = Some (VMapData vars') /\
    Forall2 (fun kv kx => fst kv = fst kx /\ shows (rel φ') (part_of 0 0 (S d) (u_mem st')) (snd kv) (snd kx)) (acc ++ rest) vars'.
Proof.
  induction 1 as [|[k v] [k' j] rest ps [Ek Hc] Hcs IH]; intros t Hl Hp Hr seen st φ d acc vars Hok Ho Ed Hs Hacc.
  - rewrite app_nil_r. exists 0%nat, st, φ, vars. split; [reflexivity|]. split; [|split; assumption].
    split; [apply incl_refl|]. split; [apply kept_refl|]. split; [intros s b I; left; exact I|exact Hs].
  - cbn [fst snd] in Ek, Hc. subst k'. inversion Hl as [|? ? Hv Hl']; subst. cbn [snd] in Hv. cbn [flat_map snd] in Ho. apply ordered_app in Ho as [Ho1 Ho2].
    assert (Ld : (d < length (u_mem st))%nat) by (eapply nth_error_lt; exact Ed).
    destruct (zalloc_fresh t (u_mem st)) as (dd & Edd & Ldd & Fr). set (tmp := snd (zalloc t (u_mem st))) in *.
    set (m0 := u_mem st ++ dd) in *. assert (L0 : (length (u_mem st) <= length m0)%nat) by (subst m0; rewrite app_length; lia).
    destruct (Hc t Hv Hp Hr seen {| u_mem := m0; u_sess := u_sess st |} φ (length (u_mem st)) tmp Ho1 Fr) as (N1 & st1 & φ1 & U1 & D1 & S1).
    { cbn [u_sess]. eapply sess_more; [apply before_incl|apply incl_refl|exact Hs]. }
    { destruct v; try exact Logic.I; left; reflexivity. }
    cbn [u_mem] in *.
    assert (D1' : done d (S d) (after seen (events j)) st φ st1 φ1).
    { eapply done_after; [apply (kept_app d (S d) (u_mem st) dd)|exact D1|]. intros y Hy. right. lia. }
    destruct D1 as (I1 & K1 & P1 & Se1). cbn [u_mem] in *. destruct K1 as [K1 K1']. cbn [u_mem] in *.
    assert (S1' : shows (rel φ1) (part_of 0 0 (S d) (u_mem st1)) v tmp).
    { refine (shows_kept _ _ _ _ _ _ 0 0 _ _ _ _ _ _ (kept_refl 0 0 _) _ _ _ _ S1); [auto|intros; lia|intros; right; lia|lia]. }
    destruct (vcopy_shows env parse_time types (rel φ1) 0 0 (S d) v t (u_mem st1) tmp Hv S1' ltac:(lia)) as (d2 & Ed2 & Lb & S2).
    set (b := snd (vcopy t tmp (u_mem st1))) in *.
    assert (Edm : nth_error (u_mem st1 ++ d2) d = Some (VMapData vars)).
    { apply nth_error_app_l. rewrite K1' by lia. subst m0. apply nth_error_app_l, Ed. }
    set (m3 := mwrite (u_mem st1 ++ d2) d (VMapData (sm_add vars k b))).
    assert (K3 : kept d (S d) (u_mem st1) m3).
    { subst m3. eapply kept_trans; [apply kept_app|apply kept_write; lia]. }
    assert (Kf : Forall (fun kv => blt (fst kv) k) vars).
    { assert (Forall (fun kv => blt (fst kv) k) acc).
      { clear - Hok. induction acc as [|[k0 v0] acc IHa]; [constructor|]. cbn [app] in Hok. apply sm_ok_cons in Hok as [H1 H2]. constructor; [|apply IHa, H1].
        rewrite Forall_app in H2. destruct H2 as [_ H2]. inversion H2; subst. assumption. }
      clear - Hacc H. induction Hacc as [|kv kx acc vars [E _] HA IHa]; [constructor|]. inversion H; subst. constructor; [rewrite <- E; assumption|apply IHa; assumption]. }
    destruct (IH t Hl' Hp Hr (after seen (events j)) (with_mem st1 m3) φ1 d (acc ++ [(k, v)]) (vars ++ [(k, b)])) as (N2 & st2 & φ2 & vars2 & U2 & D2 & E2 & S3).
    { rewrite <- app_assoc. exact Hok. }
    { exact Ho2. }
    { cbn [with_mem u_mem]. subst m3. rewrite mwrite_same by (rewrite app_length; lia). rewrite sm_add_last by exact Kf. reflexivity. }
    { exact Se1. }
    { cbn [with_mem u_mem]. apply Forall2_app.
      - eapply Forall2_impl_in; [|exact Hacc]. apply Forall_forall. intros kv _ kx [A1 A2]. split; [exact A1|].
        destruct D1' as (_ & KK & _). eapply shows_kept; [eapply kept_trans; [exact KK|exact K3]| | | |apply Nat.le_refl|exact A2]; [intros s b0; apply I1|intros; lia|intros; lia].
      - constructor; [|constructor]. cbn [fst snd]. split; [reflexivity|].
        eapply shows_kept; [apply (kept_write d (S d)); lia| | | |apply Nat.le_refl|exact S2]; [auto|intros; lia|intros; lia]. }
    exists (N1 + N2)%nat, st2, φ2, vars2. split; [|split; [|split; [exact E2|rewrite <- app_assoc in S3; exact S3]]].
    + intros n Ln. cbn [un_members]. rewrite (surjective_pairing (zalloc t (u_mem st))), Edd. fold m0. fold tmp. rewrite U1 by lia. cbn [ubind].
      rewrite (surjective_pairing (vcopy t tmp (u_mem st1))), Ed2. fold b. rewrite Edm. fold m3. apply U2. lia.
    + cbn [flat_map snd]. rewrite after_app.
      assert (D1'' : done d (S d) (after seen (events j)) st φ (with_mem st1 m3) φ1) by (apply done_then; [exact D1'|exact K3|lia]).
      eapply done_trans; [exact D1''|exact D2|lia..].
Qed.

Lemma last_pair_sorted ps k : sm_ok ps -> last_pair ps k = sm_get ps k.
Proof.
  intros H. rewrite <- (last_binding_sorted ps k H). clear H. induction ps as [|[k' v] ps IH]; [reflexivity|]. cbn [last_pair last_binding]. rewrite IH. reflexivity.
Qed.

Lemma dict_of_sorted ps kvs : sm_ok ps -> dict_of ps kvs -> kvs = ps.
Proof. intros H [H1 H2]. apply sm_ext; [exact H1|exact H|]. intros k. rewrite H2. apply last_pair_sorted, H. Qed.

Lemma save_ok own v st φ t a seen nid kvs evs : place own v φ t a -> match v with GStruct _ | GMap _ => True | _ => False end -> owned f own nid -> dict_type t ->
  sess_ok (before (JDict nid kvs) seen) φ (u_sess st) -> ordered seen ((if 0 <? nid then [Node nid] else []) ++ evs) ->
  exists ss, (if 0 <? nid then save_node_value st nid a t else UOk st tt) = UOk {| u_mem := u_mem st; u_sess := ss |} tt /\
    exists seen1, sess_ok seen1 φ ss /\ ordered seen1 evs /\ after seen ((if 0 <? nid then [Node nid] else []) ++ evs) = after seen1 evs.
Proof.
  intros Pl Hv Ow Dt Hs Ho. cbn [before] in Hs. destruct (0 <? nid) eqn:En.
  2: { exists (u_sess st). split; [destruct st; reflexivity|]. exists seen. auto. }
  exists (put_node (u_sess st) nid {| nv_value := Some (a, t); nv_targets := [] |}). split.
  - unfold save_node_value. destruct (find_node (u_sess st) nid) as [nv|] eqn:E; [|reflexivity]. rewrite (proj1 Hs nid nv E). reflexivity.
  - exists (nid :: seen). split; [|split; [exact Ho|reflexivity]].
    destruct Ow as [->|(s & Ef & Is)]; [discriminate|].
    assert (Pl' : own = [] \/ exists s, own = [s] /\ In (s, a) φ /\ nth_error types s = Some t) by (destruct v; try contradiction; exact Pl).
    destruct Pl' as [->|(s' & -> & P1 & P2)]; [contradiction|]. destruct Is as [<-|[]].
    apply (sess_put seen φ (u_sess st) nid s' a t); try assumption; [apply Hs|]. intros k I Nk. apply Hs. apply filter_In. split; [exact I|].
    destruct (Z.eqb_spec k nid); [contradiction|reflexivity].
Qed.

Lemma map_claim own m ps kvs nid : Forall2 (fun kv kj => fst kv = fst kj /\ claim [] (snd kv) (snd kj)) m ps -> dict_of ps kvs -> owned f own nid ->
  claim own (GMap (Some m)) (JDict nid kvs).
Proof.
  intros Hc Hd Ow t Ht Hp Hr seen st φ lo a Ho F Hs Pl.
  destruct t as [| | | | | | | |t| | | | | | | | | | | |]; try absurd_holds Ht.
  apply (fresh_simple _ (TMap t) _ _ Logic.I) in F as (-> & Ea & La). cbn [zero_cell] in Ea.
  destruct (holds_map m t Ht) as [Hok Hl].
  assert (Hps : sm_ok ps).
  { assert (sm_keys ps = sm_keys m) as K. { clear - Hc. induction Hc as [|[k v] [k' j] m ps [E _] H IH]; [reflexivity|]. unfold sm_keys in *. cbn [map fst] in *. congruence. } unfold sm_ok. rewrite K. exact Hok. }
  apply (dict_of_sorted ps kvs Hps) in Hd. subst kvs. cbn [events] in Ho |- *.
  destruct (save_ok own _ st φ (TMap t) a seen nid ps _ Pl Logic.I Ow Logic.I Hs Ho) as (ss & Sv & seen1 & Hs1 & Ho1 & Af).
  set (d := length (u_mem st)). set (m1 := mwrite (u_mem st ++ [VMapData []]) a (VMap (Some d))).
  assert (L1 : length m1 = S d) by (subst m1 d; rewrite mwrite_length, app_length; cbn; lia).
  assert (Ed : nth_error m1 d = Some (VMapData [])) by (subst m1; rewrite mwrite_other by (subst d; lia); apply nth_error_last).
  assert (Ea1 : nth_error m1 a = Some (VMap (Some d))) by (subst m1; apply mwrite_same; rewrite app_length; lia).
  assert (K0 : kept a (S a) (u_mem st) m1).
  { split; [subst d; lia|]. intros y Ly Ny. subst m1. rewrite mwrite_other by lia. apply nth_error_app1, Ly. }
  destruct (members_loop m ps Hc (named t) Hl (inner_named env Henv t (proper_map env t Hp)) (restorable_map t Hr) seen1 {| u_mem := m1; u_sess := ss |} φ d [] [] Hok Ho1 Ed Hs1 (Forall2_nil _))
    as (N & st' & φ' & vars & U & D & Ev & Sh).
  exists (S N), st', φ'. split; [|split].
  - intros [|n] Ln; [lia|]. cbn [Unmarshal.unm]. rewrite Sv. cbn [ubind indirect u_mem with_mem]. unfold map_data. rewrite Ea. fold d. fold m1. apply U. lia.
  - rewrite Af. eapply done_after; [exact K0|exact D|]. intros y Hy. right. subst d. lia.
  - destruct D as (_ & [D2 D2'] & _). cbn [u_mem] in *. eapply sh_map.
    + apply part_in; [left; lia|]. rewrite D2' by (subst d; lia). exact Ea1.
    + apply part_in; [right; subst d; lia|]. exact Ev.
    + eapply Forall2_impl_in; [|exact Sh]. apply Forall_forall. intros kv _ kx [A1 A2]. split; [exact A1|].
      refine (shows_kept _ _ _ _ _ _ 0 0 _ _ _ _ _ _ (kept_refl 0 0 _) _ _ _ _ A2); [auto|intros; lia|intros; lia|subst d; lia].
Qed.

(** ** Structs *)

Section Fields.
Context (fs : list (finfo * gval)) (ts : list (finfo * gty)) (vars : list addr) (lo hi : addr).
Hypothesis Apart : forall i i' x x', nth_error vars i = Some x -> nth_error vars i' = Some x' -> (i < i')%nat -> (x < start vars lo i')%nat.
Hypothesis Within : forall i x, nth_error vars i = Some x -> (lo <= start vars lo i <= x)%nat /\ (x < hi)%nat.

(** Field [i], at [x], is for member [k] and holds [v]. *)
Definition at_field (k : bytes) (i : nat) (g : finfo) (v : gval) (t : gty) (x : addr) : Prop :=
  locate ts k = [i] /\ nth_error fs i = Some (g, v) /\ nth_error ts i = Some (g, t) /\ fi_name g = k /\ nth_error vars i = Some x /\ fi_deprecated_by g = None.

Lemma fields_loop kvs : forall seen st φ, NoDup (map fst kvs) ->
  (forall k j, In (k, j) kvs -> exists i g v t x, at_field k i g v t x /\ claim [] v j /\ holds v t /\ proper t /\ restorable t /\ fresh (u_mem st) t (start vars lo i) x) ->
  ordered seen (flat_map (fun kj => events (snd kj)) kvs) -> (hi <= length (u_mem st))%nat -> sess_ok seen φ (u_sess st) ->
  exists N st' φ', (forall n, (N <= n)%nat -> un_fields locate (unm n) st ts vars kvs [] = UOk st' None) /\
    done lo hi (after seen (flat_map (fun kj => events (snd kj)) kvs)) st φ st' φ' /\
    (forall y, (y < length (u_mem st))%nat -> (forall k j i g v t x, In (k, j) kvs -> at_field k i g v t x -> ~ (start vars lo i <= y <= x)%nat) -> nth_error (u_mem st') y = nth_error (u_mem st) y) /\
    (forall k j i g v t x, In (k, j) kvs -> at_field k i g v t x -> shows (rel φ') (part_of (start vars lo i) (S x) (length (u_mem st)) (u_mem st')) v x).
Proof.
  induction kvs as [|[k j] kvs IH]; intros seen st φ Nd H Ho Lh Hs.
  - exists 0%nat, st, φ. split; [reflexivity|]. split; [|split; [reflexivity|intros ? ? ? ? ? ? ? []]].
    split; [apply incl_refl|]. split; [apply kept_refl|]. split; [intros s b I; left; exact I|exact Hs].
  - inversion Nd as [|? ? Nk Nd']; subst. cbn [flat_map snd] in Ho. apply ordered_app in Ho as [Ho1 Ho2].
    destruct (H k j (or_introl eq_refl)) as (i & g & v & t & x & A & Hc & Hv & Hp & Hr & F).
    destruct A as (A1 & A2 & A3 & A4 & A5 & A6). destruct (Within i x A5) as [W1 W2].
    destruct (Hc t Hv Hp Hr seen st φ (start vars lo i) x Ho1 F) as (N1 & st1 & φ1 & U1 & D1 & S1).
    { eapply sess_more; [apply before_incl|apply incl_refl|exact Hs]. }
    { destruct v; try exact Logic.I; left; reflexivity. }
    destruct D1 as (I1 & K1 & P1 & Se1). assert (D1 : done (start vars lo i) (S x) (after seen (events j)) st φ st1 φ1) by (repeat split; try assumption; apply K1 || apply Se1).
    (* other members have other fields *)
    assert (Dis : forall k' j' i' g' v' t' x', In (k', j') kvs -> at_field k' i' g' v' t' x' -> forall y, (start vars lo i <= y <= x)%nat -> (start vars lo i' <= y <= x')%nat -> False).
    { intros k' j' i' g' v' t' x' I (B1 & B2 & B3 & B4 & B5 & B6) y Hy Hy'. destruct (Nat.lt_trichotomy i i') as [L|[E|L]].
      - pose proof (Apart i i' x x' A5 B5 L). lia.
      - subst i'. apply Nk. assert (k = k') as -> by congruence. apply (in_map fst) in I. exact I.
      - pose proof (Apart i' i x' x B5 A5 L). lia. }
    destruct K1 as [K1 K1'].
    destruct (IH (after seen (events j)) st1 φ1 Nd') as (N2 & st2 & φ2 & U2 & D2 & Fr2 & S2).
    { intros k' j' I. destruct (H k' j' (or_intror I)) as (i' & g' & v' & t' & x' & A' & Hc' & Hv' & Hp' & Hr' & F'). exists i', g', v', t', x'. repeat (split; [assumption|]).
      apply (proj1 (fresh_kept (u_mem st) (u_mem st1)) _ _ _ F'). intros y Hy. assert (x' < hi)%nat by (destruct A' as (_ & _ & _ & _ & B5 & _); apply (Within i' x' B5)).
      apply K1'; [lia|]. intros Hy2. eapply (Dis k' j' i' g' v' t' x' I A' y); lia. }
    { exact Ho2. }
    { lia. }
    { exact Se1. }
    exists (N1 + N2)%nat, st2, φ2. split; [|split; [|split]].
    + intros n Ln. cbn [un_fields]. assert (Sf : set_field locate (unm n) (S (S (length ts))) st [] ts vars k j = UOk st1 ([k], None)).
      { cbn [set_field in_strings]. rewrite A1, A3, A5. rewrite U1 by lia. cbn [ubind]. rewrite A6. reflexivity. }
      rewrite Sf. cbn [ubind snd]. apply U2. lia.
    + cbn [flat_map snd]. rewrite after_app. eapply done_trans; [exact D1|exact D2|lia..].
    + intros y Ly Hy. rewrite Fr2; [|lia|intros k' j' i' g' v' t' x' I A'; eapply Hy; [right; exact I|exact A']].
      apply K1'; [exact Ly|]. intros B. eapply (Hy k j i g v t x); [left; reflexivity| |lia]. repeat split; assumption.
    + intros k' j' i' g' v' t' x' [I|I] A'.
      * injection I as <- <-. destruct A' as (B1 & B2 & B3 & B4 & B5 & B6). assert (i' = i) by congruence. subst i'. assert (v' = v) by congruence. assert (x' = x) by congruence. subst v' x'.
        eapply shows_mono; [| |exact S1]; [intros s b; apply D2|]. intros y c E. apply part_out in E as [Hy E]. assert (Ly : (y < length (u_mem st1))%nat) by (eapply nth_error_lt; exact E).
        apply part_in; [exact Hy|]. rewrite Fr2; [exact E|exact Ly|]. intros k' j' i' g'' v'' t'' x'' I A' Hy'.
        assert (x'' < hi)%nat by (destruct A' as (_ & _ & _ & _ & C5 & _); apply (Within i' x'' C5)).
        destruct Hy as [Hy|Hy]; [|lia]. eapply (Dis k' j' i' g'' v'' t'' x'' I A' y); lia.
      * pose proof (S2 k' j' i' g' v' t' x' I A') as Sh. refine (shows_kept _ _ _ _ _ _ 0 0 _ _ _ _ _ _ (kept_refl 0 0 _) _ _ _ _ Sh); [auto|intros; lia|intros; left; lia|lia].
Qed.
End Fields.


Lemma plain_tags (fs : list (finfo * gval)) : (forall g v, In (g, v) fs -> fi_deprecated_by g = None) -> forall k, tag_of fs k = None.
Proof.
  intros P k. induction fs as [|[g v] fs IH]; [reflexivity|]. cbn [tag_of]. rewrite IH by (intros; eapply P; right; eassumption).
  rewrite (P g v) by (left; reflexivity). destruct (negb (fi_ignore g) && bseq (fi_name g) k); reflexivity.
Qed.

Lemma restorable_field n ts g t : restorable (TStruct n ts) -> In (g, t) ts -> restorable t.
Proof. cbn. intros [_ H]. induction ts as [|[g' t'] ts IH]; [intros []|]. destruct H as [H1 H2]. intros [I|I]; [injection I as <- <-; exact H1|apply IH; assumption]. Qed.

Lemma F2_nth_l {A C} (R : A -> C -> Prop) l l' : Forall2 R l l' -> forall i x, nth_error l i = Some x -> exists y, nth_error l' i = Some y /\ R x y.
Proof. induction 1 as [|x y l l' H F IH]; intros [|i] z E; try discriminate; cbn in *; [injection E as <-; eauto|apply IH, E]. Qed.


Definition field_pairs (fs : list (finfo * gval)) (ps : list (bytes * json)) : Prop :=
  (forall g v, In (g, v) fs -> (exists j, In (fi_name g, j) ps /\ claim [] v j) \/ (zero_value v /\ forall j, ~ In (fi_name g, j) ps)) /\
  (forall k j, In (k, j) ps -> exists g v, In (g, v) fs /\ fi_name g = k /\ claim [] v j) /\ NoDup (map fst ps).

Lemma zero_shows R lo hi L m v : zero_value v -> forall t lo' a, holds v t -> fresh m t lo' a -> (lo <= lo')%nat -> (a < hi)%nat -> shows R (part_of lo hi L m) v a.
Proof.
  assert (Cell : forall t lo' a, simple t -> fresh m t lo' a -> (lo <= lo')%nat -> (a < hi)%nat -> part_of lo hi L m a = Some (zero_cell t)).
  { intros t lo' a St F L1 L2. apply (fresh_simple _ _ _ _ St) in F as (-> & E & La). apply part_in; [left; lia|exact E]. }
  induction v as [b|k z|bit g|s|t0|t0| |l IH|l IH| |kvs IH|fs IH|a0| |v IH|j|j|j|j|] using gval_ind'; intros Zv t lo' a Ht F L1 L2;
    try (inversion Zv; contradiction).
  - destruct t; try absurd_holds Ht. pose proof (Cell TBool _ _ Logic.I F L1 L2) as P. inversion Zv; subst; [contradiction|]. constructor; exact P.
  - destruct t; try absurd_holds Ht. pose proof (Cell (TInt k0) _ _ Logic.I F L1 L2) as P. inversion Zv; subst; [contradiction|]. constructor; exact P.
  - destruct t; try absurd_holds Ht. pose proof (Cell (TFloat bit0) _ _ Logic.I F L1 L2) as P. inversion Zv; subst; [contradiction|]. constructor; exact P.
  - destruct t; try absurd_holds Ht. pose proof (Cell TString _ _ Logic.I F L1 L2) as P. inversion Zv; subst; [contradiction|]. constructor; exact P.
  - destruct t; try absurd_holds Ht. pose proof (Cell TTri _ _ Logic.I F L1 L2) as P. inversion Zv; subst. destruct t0; [contradiction|]. constructor; exact P.
  - destruct t; try (destruct t0; exfalso; exact Ht). pose proof (Cell TTime _ _ Logic.I F L1 L2) as P. inversion Zv; subst; [contradiction|]. constructor; exact P.
  - destruct t; try absurd_holds Ht. pose proof (Cell (TSlice t) _ _ Logic.I F L1 L2) as P. constructor; exact P.
  - destruct t as [| | | | | | |n t| | | | | | | | | | | | |]; try absurd_holds Ht. inversion F as [? ? vars ? ? Ea Fr| |]; subst; [|contradiction].
    destruct (holds_array l n t Ht) as [Ln Hl]. subst n. assert (Zl : Forall zero_value l) by (inversion Zv; [contradiction|assumption]).
    pose proof (proj2 (fresh_bounds _) _ _ _ _ Fr) as B. eapply sh_array; [apply part_in; [left; lia|exact Ea]|].
    assert (L3 : (a <= hi)%nat) by lia. clear Ea Zv Ht F L2 B. revert vars lo' Fr L1. induction IH as [|v l Hv IHl IH]; intros vars lo' Fr L1; cbn [length repeat] in Fr; inversion Fr as [|? ? x l0 ? ? F1 F2]; subst; [constructor|].
    inversion Hl; inversion Zl; subst. pose proof (proj2 (fresh_bounds _) _ _ _ _ F2). pose proof (proj1 (fresh_bounds _) _ _ _ F1).
    constructor; [eapply Hv; [assumption|eassumption|exact F1|exact L1|lia]|eapply IH; [assumption|assumption|exact F2|lia]].
  - destruct t; try absurd_holds Ht. pose proof (Cell (TMap t) _ _ Logic.I F L1 L2) as P. constructor; exact P.
  - destruct t as [| | | | | | | | | | |n ts| | | | | | | | |]; try absurd_holds Ht. inversion F as [|? ? vars ? ? Ea Fr|]; subst; [|contradiction].
    pose proof (holds_struct fs n ts Ht) as Hl. assert (Zl : Forall (fun fv => zero_value (snd fv)) fs) by (inversion Zv; [contradiction|assumption]).
    pose proof (proj2 (fresh_bounds _) _ _ _ _ Fr) as B. eapply sh_struct; [apply part_in; [left; lia|exact Ea]|].
    assert (L3 : (a <= hi)%nat) by lia. clear Ea Zv Ht F L2 B. revert vars lo' ts Hl Fr L1. induction IH as [|v l Hv IHl IH]; intros vars lo' ts Hl Fr L1; inversion Hl as [|? ft ? ts' [_ Hh] Hl']; subst; cbn [map] in Fr; inversion Fr as [|? ? x l0 ? ? F1 F2]; subst; [constructor|].
    inversion Zl; subst. pose proof (proj2 (fresh_bounds _) _ _ _ _ F2). pose proof (proj1 (fresh_bounds _) _ _ _ F1).
    constructor; [eapply Hv; [assumption|exact Hh|exact F1|exact L1|lia]|eapply IH; [assumption|exact Hl'|exact F2|lia]].
  - destruct t; try (destruct a0; exfalso; exact Ht). pose proof (Cell (TPtr t) _ _ Logic.I F L1 L2) as P. inversion Zv; subst. destruct a0; [contradiction|]. constructor; exact P.
  - destruct t; try absurd_holds Ht. pose proof (Cell (TSer name f0) _ _ Logic.I F L1 L2) as P. constructor; exact P.
  - destruct t; try (destruct j; exfalso; exact Ht). pose proof (Cell (TJsonPtr k) _ _ Logic.I F L1 L2) as P. inversion Zv; subst. destruct j; [contradiction|]. constructor; exact P.
  - destruct t; try (destruct j; exfalso; exact Ht). pose proof (Cell TJsonObj _ _ Logic.I F L1 L2) as P. inversion Zv; subst. destruct j; [contradiction|]. constructor; exact P.
Qed.

Lemma struct_claim own fs ps kvs nid :
  ((forall g v, In (g, v) fs -> fi_ignore g = false /\ fi_deprecated_by g = None) -> NoDup (map (fun fv => fi_name (fst fv)) fs) ->
    field_pairs fs ps) ->
  struct_dict (tag_of fs) ps kvs -> owned f own nid -> claim own (GStruct fs) (JDict nid kvs).
Proof.
  intros Hc0 [Kok Kget] Ow t Ht Hp Hr seen st φ lo a Ho F Hs Pl.
  destruct t as [| | | | | | | | | | |n0 ts| | | | | | | | |]; try absurd_holds Ht.
  pose proof (holds_struct fs n0 ts Ht) as Hh. pose proof (proj1 Hr) as Pf. destruct Pf as (Pf1 & Pf2 & Pf3).
  assert (Pfs : forall g v, In (g, v) fs -> fi_ignore g = false /\ fi_deprecated_by g = None).
  { intros g v I. apply In_nth_error in I as [i I]. destruct (F2_nth_l _ _ _ Hh i _ I) as ([g' t] & E & Eg & _). cbn [fst] in Eg. subst g'. apply (Pf1 g t). eapply nth_error_In; exact E. }
  assert (Nfs : NoDup (map (fun fv : finfo * gval => fi_name (fst fv)) fs)).
  { assert (map (fun fv : finfo * gval => fi_name (fst fv)) fs = map (fun ft => fi_name (fst ft)) ts) as ->; [|exact Pf2]. clear - Hh. induction Hh as [|fv ft fs ts [E _] _ IH]; [reflexivity|]. cbn [map]. congruence. }
  destruct (Hc0 Pfs Nfs) as (Hc1 & Hc2 & Nps).
  assert (Tg : forall k, tag_of fs k = None) by (apply plain_tags; intros g v I; apply (Pfs g v I)).
  assert (Kin : forall k j, In (k, j) kvs <-> In (k, j) ps).
  { intros k j. rewrite <- (sm_get_in kvs k j Kok), Kget. split.
    - intros [[T _]|[_ L]]; [rewrite Tg in T; congruence|apply last_pair_some, L].
    - intros I. right. split; [intros (j' & T & _); rewrite Tg in T; congruence|apply last_pair_in; assumption]. }
  inversion F as [|? ? vars ? ? Ea Fr|]; subst; [|contradiction].
  assert (La : (a < length (u_mem st))%nat) by (eapply nth_error_lt; exact Ea).
  cbn [events] in Ho |- *.
  destruct (save_ok own _ st φ (TStruct n0 ts) a seen nid kvs _ Pl Logic.I Ow Logic.I Hs Ho) as (ss & Sv & seen1 & Hs1 & Ho1 & Af).
  pose proof (run_length _ _ _ _ _ Fr) as Lv. rewrite map_length in Lv.
  assert (Within : forall i x, nth_error vars i = Some x -> (lo <= start vars lo i <= x)%nat /\ (x < a)%nat).
  { intros i x E. assert (i < length (map snd ts))%nat as Li by (rewrite map_length, <- Lv; apply nth_error_Some; congruence). apply nth_error_Some in Li.
    destruct (nth_error (map snd ts) i) as [t|] eqn:Et; [|congruence]. destruct (run_nth _ _ _ _ _ Fr i t Et) as (x' & Ex & _ & L1 & L2). assert (x' = x) by congruence. subst x'. lia. }
  (* every field is somewhere *)
  assert (Fld : forall i g v, nth_error fs i = Some (g, v) -> exists t x, at_field fs ts vars (fi_name g) i g v t x /\
      holds v t /\ proper t /\ restorable t /\ fresh (u_mem st) t (start vars lo i) x).
  { intros i g v E. destruct (F2_nth_l _ _ _ Hh i _ E) as ([g' t] & Et & Eg & Hv). cbn [fst snd] in Eg, Hv. subst g'.
    assert (nth_error (map snd ts) i = Some t) as Et' by (rewrite nth_error_map, Et; reflexivity).
    destruct (run_nth _ _ _ _ _ Fr i t Et') as (x & Ex & Fx & _). exists t, x.
    assert (In (g, t) ts) as I by (eapply nth_error_In; exact Et).
    split; [|split; [exact Hv|split; [eapply proper_fields; [exact Hp|exact I]|split; [eapply restorable_field; [exact Hr|exact I]|exact Fx]]]].
    repeat split; try assumption; [eapply Pf3; exact Et|apply (Pf1 g t I)]. }
  destruct (fields_loop fs ts vars lo a (run_apart _ _ _ _ _ Fr) Within kvs seen1 {| u_mem := u_mem st; u_sess := ss |} φ) as (N & st' & φ' & U & D & Frm & Sh).
  { apply sm_ok_nodup, Kok. }
  { intros k j I. apply Kin in I. destruct (Hc2 k j I) as (g & v & If & <- & Cl). apply In_nth_error in If as [i E].
    destruct (Fld i g v E) as (t & x & A & R1 & R2 & R3 & R4). exists i, g, v, t, x. auto 10. }
  { exact Ho1. }
  { cbn [u_mem]. lia. }
  { exact Hs1. }
  cbn [u_mem] in *. exists (S N), st', φ'. split; [|split].
  - intros [|n] Ln; [lia|]. cbn [Unmarshal.unm]. rewrite Sv. cbn [ubind indirect u_mem with_mem]. unfold fields_of. cbn [u_mem]. rewrite Ea. apply U. lia.
  - rewrite Af. destruct D as (D1 & D2 & D3 & D4). split; [exact D1|]. split; [eapply kept_more; [apply Nat.le_refl|apply Nat.le_succ_diag_r|exact D2]|]. split; assumption.
  - destruct D as (_ & [D2 D2'] & _). cbn [u_mem] in *. pose proof (proj2 (fresh_bounds _) _ _ _ _ Fr). eapply sh_struct.
    + apply part_in; [left; lia|]. rewrite D2' by lia. exact Ea.
    + assert (Lf : length fs = length vars) by (rewrite (F2_length _ _ _ Hh); symmetry; exact Lv).
      assert (G : forall i g v x, nth_error fs i = Some (g, v) -> nth_error vars i = Some x -> shows (rel φ') (part_of lo (S a) (length (u_mem st)) (u_mem st')) v x).
      { intros i g v x E Ex. destruct (Fld i g v E) as (t & x' & A & Hv & _ & _ & Fx). assert (x' = x) by (destruct A as (_ & _ & _ & _ & A & _); congruence). subst x'.
        destruct (Within i x Ex) as [W1 W2]. destruct (Hc1 g v) as [(j & I & _)|[Z Nin]]; [eapply nth_error_In; exact E| |].
        - apply Kin in I. pose proof (Sh _ _ _ _ _ _ _ I A) as S1.
          refine (shows_kept _ _ _ _ _ _ 0 0 _ _ _ _ _ _ (kept_refl 0 0 _) _ _ _ _ S1); [auto|intros; lia|intros; left; lia|lia].
        - eapply zero_shows; [exact Z|exact Hv| |apply W1|lia].
          apply (proj1 (fresh_kept (u_mem st) (u_mem st')) _ _ _ Fx). intros y Hy. apply Frm; [lia|].
          intros k' j' i' g' v' t' x' I' A' Hy'. destruct A as (A1 & A2 & A3 & A4 & A5 & A6). destruct A' as (B1 & B2 & B3 & B4 & B5 & B6).
          destruct (Nat.lt_trichotomy i i') as [L|[El|L]].
          + pose proof (run_apart _ _ _ _ _ Fr i i' x x' A5 B5 L). lia.
          + subst i'. assert (g' = g) by congruence. subst g'. apply (Nin j'). apply Kin. rewrite <- B4 in I'. exact I'.
          + pose proof (run_apart _ _ _ _ _ Fr i' i x' x B5 A5 L). lia. }
      clear - Lf G. revert vars Lf G. induction fs as [|[g v] fs IH]; intros [|x vars] Lf G; try discriminate; constructor; [apply (G 0%nat g v x); reflexivity|].
      apply IH; [cbn in Lf; lia|]. intros i g' v' x' E E'. apply (G (S i) g' v' x'); assumption.
Qed.

(** ** The induction *)


Lemma zeros_sub i v i' w : (forall p, sub stg (i', w) p -> sub stg (i, v) p) -> only_zeros_dropped omit stg i v -> only_zeros_dropped omit stg i' w.
Proof. intros S H O i0 w0 Sb. apply (H O). apply S, Sb. Qed.

(* The claim about a value and, if it is a pointer, about an interface holding it. *)
Definition claim2 (own : list addr) (v : gval) (j : json) : Prop := claim own v j /\ forall s, v = GPtr (Some s) -> claim own (GIface (Some v)) j.

Lemma claim2_1 own v j : (forall s, v <> GPtr (Some s)) -> claim own v j -> claim2 own v j.
Proof. intros N C. split; [exact C|]. intros s ->. exfalso. exact (N s eq_refl). Qed.

Lemma iface_claim own v j : claim2 own v j -> claim own (GIface (Some v)) j.
Proof. intros [_ C] t Ht. destruct (holds_iface _ _ Ht) as (s & _ & _ & E & _). exact (C s E t Ht). Qed.

Theorem restore2 own i v j : encodes stg omit f own i v j -> texts i v -> only_zeros_dropped omit stg i v -> claim2 own v j.
Proof.
  revert own i v j.
  apply (encodes_ind2 stg omit f (fun own i v j => texts i v -> only_zeros_dropped omit stg i v -> claim2 own v j)
    (fun l js => (forall x, In x l -> texts None x) -> (forall x, In x l -> only_zeros_dropped omit stg None x) -> Forall2 (claim []) l js)
    (fun m ps => (forall k x, In (k, x) m -> texts None x) -> (forall k x, In (k, x) m -> only_zeros_dropped omit stg None x) -> Forall2 (fun kv kj => fst kv = fst kj /\ claim [] (snd kv) (snd kj)) m ps)
    (fun fs ps => (forall g v, In (g, v) fs -> texts (Some g) v) -> (forall g v, In (g, v) fs -> only_zeros_dropped omit stg (Some g) v) ->
      (forall g v, In (g, v) fs -> fi_ignore g = false /\ fi_deprecated_by g = None) -> NoDup (map (fun fv => fi_name (fst fv)) fs) ->
      field_pairs fs ps)).
  - intros own i v Hn _ _. apply claim2_1; [intros s ->; exact Hn|apply nil_claim, Hn].
  - intros own i b Hf _. apply claim2_1; [discriminate|apply bool_claim, Hf].
  - intros own i k z Hf _. cbn zeta. apply claim2_1; [discriminate|apply int_claim, Hf].
  - intros own i bit x Hf _. apply claim2_1; [discriminate|apply float_claim, Hf].
  - intros own i s _ _. apply claim2_1; [discriminate|apply string_claim].
  - intros own i b _ _. apply claim2_1; [discriminate|apply tri_claim].
  - intros own i o _ _. apply claim2_1; [discriminate|apply time_claim].
  - intros own i l js _ _ H Hf Z. apply claim2_1; [discriminate|]. apply slice_claim, H; intros x I; [eapply texts_sub; [|exact Hf]|eapply zeros_sub; [|exact Z]]; intros p; apply S_slice, I.
  - intros own i l js _ _ H Hf Z. apply claim2_1; [discriminate|]. apply array_claim, H; intros x I; [eapply texts_sub; [|exact Hf]|eapply zeros_sub; [|exact Z]]; intros p; apply S_array, I.
  - intros own i m n ps kvs _ _ H Hd Ho Hf Z. apply claim2_1; [discriminate|]. eapply map_claim; [apply H|exact Hd|exact Ho]; intros k x I; [eapply texts_sub; [|exact Hf]|eapply zeros_sub; [|exact Z]]; intros p; eapply S_map, I.
  - intros own i fs n ps kvs _ _ H Hd Ho Hf Z. apply claim2_1; [discriminate|]. eapply struct_claim; [|exact Hd|exact Ho]. intros P. apply H; [| |exact P];
    intros g v I; [eapply texts_sub; [|exact Hf]|eapply zeros_sub; [|exact Z]]; intros p; (apply S_field; [exact I|apply (P g v I)..]).
  - intros own i v j Hf Hn Hc _ _ T _. exfalso. destruct (texts_here _ _ T Hf) as [_ X]. destruct v as [| | | | | |[]| |[]| | | | | | | |]; try contradiction; apply Hn; exact Logic.I.
  - intros own i a n Hf _ _. split; [apply ref_claim, Hf|]. intros s Es. injection Es as <-. apply ser_ref_claim, Hf.
  - intros own i a x j Ex E IH Hf Z. assert (C : claim (a :: own) x j) by (apply IH; [exact (texts_ptr _ _ _ Ex Hf)|]; eapply zeros_sub; [|exact Z]; intros p; apply S_ptr, Ex).
    split; [eapply ptr_claim; eassumption|]. intros s Es. injection Es as <-. eapply ser_claim; eassumption.
  - intros own i x j E IH Hf Z. apply claim2_1; [discriminate|]. apply iface_claim, IH; [eapply texts_sub; [|exact Hf]; intros p; apply S_iface|]. eapply zeros_sub; [|exact Z]. intros p. apply S_iface.
  - intros own i j _ _. apply claim2_1; [discriminate|apply json_ptr_claim].
  - intros own i j _ _. apply claim2_1; [discriminate|apply json_obj_claim].
  - intros own i j _ _. apply claim2_1; [discriminate|]. intros t Ht. destruct t; contradiction.
  - intros own i j Hf _. apply claim2_1; [discriminate|]. eapply std_claim, Hf.
  - intros own i _ _. apply claim2_1; [discriminate|]. intros t Ht. destruct t; contradiction.
  - constructor.
  - intros v l js O D _ _ _ Z. exfalso. destruct (Z v (or_introl eq_refl) O None v (S_refl _ _) D) as [X _]. apply X. reflexivity.
  - intros v l j js _ _ IH1 _ IH2 T Z. constructor; [apply IH1; [apply T|apply Z]; left; reflexivity|apply IH2; intros x I; [apply T|apply Z]; right; exact I].
  - constructor.
  - intros k v m ps O D _ _ _ Z. exfalso. destruct (Z k v (or_introl eq_refl) O None v (S_refl _ _) D) as [X _]. apply X. reflexivity.
  - intros k v m j ps _ _ IH1 _ IH2 T Z. constructor; [split; [reflexivity|apply IH1; [eapply T|eapply Z]; left; reflexivity]|apply IH2; intros k' x I; [eapply T|eapply Z]; right; exact I].
  - intros _ _ _ _. split; [intros g v []|split; [intros k j []|constructor]].
  - intros x v fs ps Hi _ _ _ _ P. destruct (P x v (or_introl eq_refl)) as [P1 _]. congruence.
  - intros x v fs ps Hi _ _ _ _ P. destruct (P x v (or_introl eq_refl)) as (_ & P1). congruence.
  - intros x v fs ps O D _ IH T Z P Nd. cbn [map fst] in Nd. apply NoDup_cons_iff in Nd as [Nx Nd'].
    destruct (Z x v (or_introl eq_refl) O (Some x) v (S_refl _ _) D) as [_ Zv].
    destruct IH as (I1 & I2 & I3); [intros g w I; apply T; right; exact I|intros g w I; apply Z; right; exact I|intros g w I; apply (P g w); right; exact I|exact Nd'|].
    split; [|split; [|exact I3]].
    + intros g w [I|I]; [injection I as <- <-|apply I1, I]. right. split; [exact Zv|]. intros j I. destruct (I2 _ _ I) as (g & w & Ig & Eg & _).
      apply Nx. rewrite <- Eg. apply (in_map (fun fv => fi_name (fst fv))) in Ig. exact Ig.
    + intros k j I. destruct (I2 k j I) as (g & w & Ig & Eg & Cl). exists g, w. split; [right; exact Ig|]. split; assumption.
  - intros x v fs j ps _ _ _ _ IH1 _ IH2 T Z P Nd. cbn [map fst] in Nd. apply NoDup_cons_iff in Nd as [Nx Nd'].
    assert (Cl : claim [] v j) by (apply IH1; [apply T|apply Z]; left; reflexivity).
    destruct IH2 as (I1 & I2 & I3); [intros g w I; apply T; right; exact I|intros g w I; apply Z; right; exact I|intros g w I; apply (P g w); right; exact I|exact Nd'|].
    split; [|split].
    + intros g w [I|I]; [injection I as <- <-; left; exists j; split; [left; reflexivity|exact Cl]|].
      destruct (I1 g w I) as [(j' & Ij & C)|[Zw Nin]]; [left; exists j'; split; [right; exact Ij|exact C]|right; split; [exact Zw|]].
      intros j' [E|E]; [|exact (Nin j' E)]. injection E as E _. apply Nx. rewrite E. apply (in_map (fun fv => fi_name (fst fv))) in I. exact I.
    + intros k j' [I|I]; [injection I as <- <-; exists x, v; split; [left; reflexivity|split; [reflexivity|exact Cl]]|].
      destruct (I2 k j' I) as (g & w & Ig & Eg & C). exists g, w. split; [right; exact Ig|split; assumption].
    + cbn [map fst]. constructor; [|exact I3]. intros I. apply in_map_iff in I as ([k j'] & Ek & I). cbn [fst] in Ek. subst k.
      destruct (I2 _ _ I) as (g & w & Ig & Eg & _). apply Nx. rewrite <- Eg. apply (in_map (fun fv => fi_name (fst fv))) in Ig. exact Ig.
Qed.

Theorem restore own i v j : encodes stg omit f own i v j -> texts i v -> only_zeros_dropped omit stg i v -> claim own v j.
Proof. intros E Hf Z. apply (restore2 own i v j E Hf Z). Qed.
End Restore.
