(** C43, continued: null, pointers, and strings for slices. *)
From Coq Require Import Lia.
From Verif Require Import Base Strconv SpecFloat SortedMap Json SpecJson SpecRFC SpecScalar Printer Access JErrors Heap Gotypes Marshal
  Unmarshal SpecUnmarshal UnmFacts UnmTotal SpecConvert ConvertFacts ZeroFacts PropConvert.
Open Scope Z_scope.

Section C43.
Context (env : nat -> list (finfo * gty)) (locate : list (finfo * gty) -> bytes -> list nat).
Context (match_us match_eu : bytes -> bool) (to_bool : bytes -> bool)
  (parse_time : bytes -> option bytes) (time_json : bytes -> option (option bytes)) (std_ok : bytes -> bool).
Notation Unmarshal := (Unmarshal env locate match_us match_eu to_bool parse_time time_json std_ok).
Notation unm := (unm env locate match_us match_eu to_bool parse_time time_json std_ok).
Notation step_scalar := (step_scalar match_us match_eu to_bool parse_time).
Notation indirect := (indirect env).
Notation start m := {| u_mem := m; u_sess := [] |}.

(** Null, and a number or boolean by itself, set the variable to the zero value
    of its type, without an error; variables of another kind than those inside
    it keep their value (which: C40_touches_only_reachable). *)
Theorem C43_null : forall n T m t a doc keys, mem_ok env T m -> nth_error T a = Some (Var t) -> proper env t -> counts_as_null doc keys ->
  exists m', Unmarshal (S n) m t a doc keys = TopOk m' /\ zero_var m' t a /\ length m' = length m.
Proof.
  intros n T m t a doc keys HT Ta Hp Hc.
  assert (Er : resolve env t = t) by (destruct t; try reflexivity; contradiction).
  exists (set_zero t a m). assert (M : mok env (fun _ _ => False) T m) by (apply mok_of, HT).
  split; [|split; [eapply set_zero_zero; eassumption|]].
  - unfold Unmarshal.Unmarshal. destruct Hc as [[N E]|[-> D]].
    + destruct keys as [|k keys]; [congruence|]. destruct doc; try discriminate E. cbn [receiver]. rewrite E, Er. reflexivity.
    + destruct doc; try contradiction; cbn [receiver]; rewrite Er; reflexivity.
  - pose proof (set_zero_ok env (fun _ _ => False) t Hp T m a M Ta) as M'. rewrite <- (mok_length _ _ _ _ M), <- (mok_length _ _ _ _ M'). reflexivity.
Qed.

(** ** Pointers *)

(** What [indirect] has found it finds again. *)
Definition set_cell (c : vcell) : Prop := match c with VPtr (Some _) | VJson (Some _) => True | _ => False end.
Notation mok := (mok env (fun _ _ => False)).

Lemma indirect_again (Henv : env_ok env) t : inner env t -> forall T m a, mok T m -> nth_error T a = Some (Var (named env t)) ->
  (forall x c, nth_error m x = Some c -> set_cell c -> nth_error (fst (indirect t a m)) x = Some c)
  /\ (forall m', (forall x c, nth_error (fst (indirect t a m)) x = Some c -> set_cell c -> nth_error m' x = Some c) -> indirect t a m' = (m', snd (indirect t a m))).
Proof.
  induction t as [t Ht|t IH|k t IH|t IH|t IH|t IH|n fs IH] using gty_ind'; intros Hp T m a H E; try (split; intros; [assumption|reflexivity]).
  - destruct t; try contradiction; try (split; intros; [assumption|reflexivity]). cbn [Unmarshal.indirect]. cbn [named] in E.
    destruct (mok_cell _ _ _ _ _ _ H E) as (c & Ec & C). rewrite Ec. assert (La : (a < length m)%nat) by (eapply nth_error_lt; eassumption).
    inversion C; subst. destruct j as [j|]; cbn [fst snd].
    + split; [intros; assumption|]. intros m' K. rewrite (K a _ Ec Logic.I). reflexivity.
    + split.
      * intros x c Ex S. destruct (Nat.eq_dec a x) as [<-|N]; [rewrite Ec in Ex; injection Ex as <-; contradiction|rewrite mwrite_other by exact N; exact Ex].
      * intros m' K. rewrite (K a (VJson (Some (zero_json k)))); [reflexivity|apply mwrite_same; exact La|exact Logic.I].
  - cbn [inner] in Hp. apply proper_ptr in Hp. cbn [named] in E. cbn [Unmarshal.indirect].
    destruct (mok_cell _ _ _ _ _ _ H E) as (c & Ec & C). rewrite Ec. assert (La : (a < length m)%nat) by (eapply nth_error_lt; eassumption).
    inversion C; subst.
    + destruct (zalloc_ok env (fun _ _ => False) (named env t) (inner_named _ Henv t Hp) T m H) as (T1 & H1 & E1). change (resolve env t) with (named env t).
      destruct (zalloc_keeps (named env t) m) as [d Ed]. destruct (zalloc (named env t) m) as [m1 b]. cbn [fst snd] in *. subst m1.
      assert (La1 : (a < length (m ++ d))%nat) by (rewrite app_length; lia).
      assert (Ea : nth_error (T ++ T1) a = Some (Var (TPtr t))) by (apply nth_error_app_l; exact E).
      destruct (IH Hp (T ++ T1) (mwrite (m ++ d) a (VPtr (Some b))) b) as [K1 K2]; [eapply mok_write; [exact H1|exact Ea|exact Logic.I|constructor; exact E1]|exact E1|]. split.
      * intros x c Ex S. apply K1; [|exact S]. destruct (Nat.eq_dec a x) as [<-|N]; [rewrite Ec in Ex; injection Ex as <-; contradiction|rewrite mwrite_other by exact N; apply nth_error_app_l; exact Ex].
      * intros m' K. rewrite (K a (VPtr (Some b))); [apply K2; exact K| |exact Logic.I]. apply K1; [apply mwrite_same; exact La1|exact Logic.I].
    + destruct (IH Hp T m b H ltac:(assumption)) as [K1 K2]. split; [exact K1|]. intros m' K. rewrite (K a (VPtr (Some b))); [apply K2; exact K| |exact Logic.I]. apply K1; [exact Ec|exact Logic.I].
Qed.

(** A scalar first looks for UnmarshalJSON; doing so before changes nothing. *)
Lemma unm_std n m t a j : scalar j -> (t = TTime -> forall s, j <> JString s) ->
  unm (S n) (start m) t a j =
  (let '(m1, u) := indirect t a m in
   match u with
   | Some b => let '(m2, e) := call_std time_json std_ok m1 b (String_ j) in UOk (start m2) e
   | None =>
      match step_scalar j t with
        | Write c => UOk (start (mwrite m1 a c)) None
        | Keep => UOk (start m1) None
        | Into t' => match nth_error m1 a with Some (VPtr (Some b)) => unm n (start m1) (resolve env t') b j | _ => UPanic end
        | First t' =>
            let '(m2, l) := resize 1 (resolve env t') a m1 false in
            match l with b :: _ => unm n (start m2) (resolve env t') b j | [] => UPanic end
        | Fail e => UOk (start m1) (Some e)
        | Panic => UPanic
        end
   end).
Proof.
  intros Sc NT. destruct j; try contradiction; try reflexivity. destruct t; try reflexivity. exfalso. eapply NT; reflexivity.
Qed.

Lemma indirect_resolve t a m : inner env t -> indirect (resolve env t) a m = indirect t a m.
Proof. destruct t; reflexivity. Qed.

Lemma unm_after (Henv : env_ok env) n T m t a j : scalar j -> (t = TTime -> forall s, j <> JString s) -> inner env t -> mok T m -> nth_error T a = Some (Var (named env t)) ->
  snd (indirect t a m) = None -> unm n (start (fst (indirect t a m))) (resolve env t) a j = unm n (start m) (resolve env t) a j.
Proof.
  intros Sc NT Hi M E N. destruct n as [|n]; [reflexivity|].
  assert (NT' : resolve env t = TTime -> forall s, j <> JString s) by (destruct t; try discriminate; assumption).
  rewrite !unm_std by assumption. rewrite !(indirect_resolve t) by exact Hi.
  destruct (indirect_again Henv t Hi T m a M E) as [_ K]. rewrite (K (fst (indirect t a m))) by (intros; assumption).
  destruct (indirect t a m) as [m1 u]. cbn [fst snd] in *. subst u. reflexivity.
Qed.

Lemma step_pointer j t : scalar j -> step_scalar j (TPtr t) = Into t.
Proof. destruct j; try contradiction; reflexivity. Qed.

(** A scalar for a pointer goes into the variable it points to. *)
Theorem C43_pointer : env_ok env -> forall n T m t a b doc keys j, mem_ok env T m -> nth_error T a = Some (Var (TPtr t)) -> proper env (TPtr t) ->
  nth_error m a = Some (VPtr (Some b)) -> selected doc keys j -> scalar j -> (t = TTime -> forall s, j <> JString s) ->
  Unmarshal (S (S n)) m (TPtr t) a doc keys = Unmarshal (S n) m t b doc keys.
Proof.
  intros Henv n T m t a b doc keys j HT Ta Hp Ea Sel Sc NT. rewrite !(selected_top env locate match_us match_eu to_bool parse_time time_json std_ok _ _ _ _ _ _ _ Sel). f_equal. cbn [resolve].
  assert (M : mok T m) by (apply mok_of, HT). apply proper_ptr in Hp.
  assert (Tb : nth_error T b = Some (Var (named env t))).
  { destruct (mok_cell _ _ _ _ _ _ M Ta) as (c & Ec & C). rewrite Ea in Ec. injection Ec as <-. inversion C. assumption. }
  rewrite (unm_std (S n) m (TPtr t)) by (assumption || discriminate). cbn [Unmarshal.indirect]. rewrite Ea, step_pointer by exact Sc.
  destruct (indirect_again Henv t Hp T m b M Tb) as [K1 K2].
  pose proof (unm_after Henv (S n) T m t b j Sc NT Hp M Tb) as A. pose proof (unm_std n m (resolve env t) b j Sc) as U. rewrite indirect_resolve in U by exact Hp.
  pose proof (K1 a _ Ea Logic.I) as Ea'. destruct (indirect t b m) as [m1 [u|]]; cbn [fst snd] in *.
  - rewrite U by (destruct t; try discriminate; assumption). reflexivity.
  - rewrite Ea'. apply A. reflexivity.
Qed.

(** If it is nil, a new zero variable is made first. *)
Theorem C43_nil_pointer : env_ok env -> forall n T m t a doc keys j, mem_ok env T m -> nth_error T a = Some (Var (TPtr t)) -> proper env (TPtr t) ->
  nth_error m a = Some (VPtr None) -> selected doc keys j -> scalar j -> (t = TTime -> forall s, j <> JString s) ->
  exists m1 b, leads_to_new m a (VPtr (Some b)) (named env t) b m1 /\ Unmarshal (S (S n)) m (TPtr t) a doc keys = Unmarshal (S n) m1 t b doc keys.
Proof.
  intros Henv n T m t a doc keys j HT Ta Hp Ea Sel Sc NT. assert (M : mok T m) by (apply mok_of, HT). pose proof (proper_ptr _ _ Hp) as Hi.
  pose proof (inner_named _ Henv t Hi) as Hn. assert (La : (a < length m)%nat) by (eapply nth_error_lt; eassumption).
  destruct (zalloc_zero env (named env t) Hn m) as ([d Ed] & Z & L). destruct (zalloc_ok env (fun _ _ => False) (named env t) Hn T m M) as (T1 & M1 & E1).
  destruct (zalloc (named env t) m) as [m1 b] eqn:Ez. cbn [fst snd] in *. subst m1.
  assert (La1 : (a < length (m ++ d))%nat) by (rewrite app_length; lia).
  assert (Ta1 : nth_error (T ++ T1) a = Some (Var (TPtr t))) by (apply nth_error_app_l; exact Ta).
  assert (M2 : mok (T ++ T1) (mwrite (m ++ d) a (VPtr (Some b)))) by (eapply mok_write; [exact M1|exact Ta1|exact Logic.I|constructor; exact E1]).
  exists (mwrite (m ++ d) a (VPtr (Some b))), b. split; [split; [lia|]; split; [|split]|].
  - rewrite mwrite_app by exact La. destruct (zalloc_placed (named env t) m (mwrite m a (VPtr (Some b)))) as (d' & b' & E2 & E3); [rewrite mwrite_length; reflexivity|].
    rewrite Ez in E2. injection E2 as E2 <-. apply app_inv_head in E2 as <-. destruct (zalloc_zero env (named env t) Hn (mwrite m a (VPtr (Some b)))) as (_ & Z' & _). rewrite E3 in Z'. exact Z'.
  - apply mwrite_same. exact La1.
  - intros x Lx N. rewrite mwrite_other by congruence. apply nth_error_app1. exact Lx.
  - rewrite <- (C43_pointer Henv n (T ++ T1) _ t a b doc keys j); try assumption; [|exact (proj1 M2)|apply mwrite_same; exact La1].
    rewrite !(selected_top env locate match_us match_eu to_bool parse_time time_json std_ok _ _ _ _ _ _ _ Sel). f_equal. cbn [resolve].
    rewrite !unm_std by (assumption || discriminate). cbn [Unmarshal.indirect]. rewrite Ea. change (resolve env t) with (named env t). rewrite Ez.
    rewrite mwrite_same by exact La1. reflexivity.
Qed.

(** A string for a *time.Time is read by time.Time's UnmarshalJSON, unlike one
    for a time.Time (C43_converted). *)
Theorem C43_pointer_to_time : forall n m a b doc keys s old, nth_error m a = Some (VPtr (Some b)) -> nth_error m b = Some (VTime old) -> selected doc keys (JString s) ->
  (forall x, time_json (String_ (JString s)) = Some x -> exists m', Unmarshal (S n) m (TPtr TTime) a doc keys = TopOk m' /\ written m b (VTime x) m')
  /\ (time_json (String_ (JString s)) = None -> Unmarshal (S n) m (TPtr TTime) a doc keys = TopErr m EStd).
Proof.
  intros n m a b doc keys s old Ea Eb Sel. rewrite (selected_top env locate match_us match_eu to_bool parse_time time_json std_ok _ _ _ _ _ _ _ Sel). cbn [resolve].
  rewrite unm_std by (exact Logic.I || discriminate). cbn [Unmarshal.indirect]. rewrite Ea. unfold call_std. rewrite Eb. split.
  - intros x ->. exists (mwrite m b (VTime x)). split; [reflexivity|]. apply written_mwrite. eapply nth_error_lt; eassumption.
  - intros ->. reflexivity.
Qed.

(** A string for a slice goes into its first element; the slice gets length 1.
    A slice without room is replaced by a new one. *)
Theorem C43_string_into_slice : forall n m t a doc keys s l b k, nth_error m a = Some (VSlice (Some (b :: l, k))) -> selected doc keys (JString s) ->
  exists m1, written m a (VSlice (Some (b :: l, 1%nat))) m1 /\ Unmarshal (S n) m (TSlice t) a doc keys = Unmarshal n m1 t b doc keys.
Proof.
  intros n m t a doc keys s l b k Ea Sel. exists (mwrite m a (VSlice (Some (b :: l, 1%nat)))). split; [apply written_mwrite; eapply nth_error_lt; eassumption|].
  rewrite !(selected_top env locate match_us match_eu to_bool parse_time time_json std_ok _ _ _ _ _ _ _ Sel). f_equal. cbn [resolve].
  rewrite unm_std by (exact Logic.I || discriminate). cbn [Unmarshal.indirect Unmarshal.step_scalar step_string]. unfold resize. rewrite Ea. reflexivity.
Qed.

Theorem C43_string_into_empty_slice : env_ok env -> forall n m t a doc keys s sl, proper env (TSlice t) -> nth_error m a = Some (VSlice sl) ->
  (sl = None \/ exists k, sl = Some ([], k)) -> selected doc keys (JString s) ->
  exists m1 b, leads_to_new m a (VSlice (Some ([b], 1%nat))) (named env t) b m1 /\ Unmarshal (S n) m (TSlice t) a doc keys = Unmarshal n m1 t b doc keys.
Proof.
  intros Henv n m t a doc keys s sl Hp Ea Hs Sel. pose proof (inner_named _ Henv t (proper_slice _ _ Hp)) as Hn. assert (La : (a < length m)%nat) by (eapply nth_error_lt; eassumption).
  destruct (zalloc_zero env (named env t) Hn m) as ([d Ed] & Z & L). destruct (zalloc (named env t) m) as [m1 b] eqn:Ez. cbn [fst snd] in *. subst m1.
  assert (La1 : (a < length (m ++ d))%nat) by (rewrite app_length; lia).
  exists (mwrite (m ++ d) a (VSlice (Some ([b], 1%nat)))), b. split; [split; [lia|]; split; [|split]|].
  - rewrite mwrite_app by exact La. destruct (zalloc_placed (named env t) m (mwrite m a (VSlice (Some ([b], 1%nat))))) as (d' & b' & E2 & E3); [rewrite mwrite_length; reflexivity|].
    rewrite Ez in E2. injection E2 as E2 <-. apply app_inv_head in E2 as <-. destruct (zalloc_zero env (named env t) Hn (mwrite m a (VSlice (Some ([b], 1%nat))))) as (_ & Z' & _). rewrite E3 in Z'. exact Z'.
  - apply mwrite_same. exact La1.
  - intros x Lx N. rewrite mwrite_other by congruence. apply nth_error_app1. exact Lx.
  - rewrite !(selected_top env locate match_us match_eu to_bool parse_time time_json std_ok _ _ _ _ _ _ _ Sel). f_equal. cbn [resolve].
    rewrite unm_std by (exact Logic.I || discriminate). cbn [Unmarshal.indirect Unmarshal.step_scalar step_string]. unfold resize. rewrite Ea.
    change (resolve env t) with (named env t). cbn [times]. rewrite Ez. destruct Hs as [->|[k ->]]; reflexivity.
Qed.
End C43.

(** ** Examples *)

(** One variable of each of some types; pointers and slices lead to others. *)
Definition c_mem : mem :=
  [VInt 7; VString (B"old"); VBool true; VPtr (Some 0%nat); VPtr None; VSlice (Some ([0%nat; 6%nat], 2%nat)); VInt 8; VTime None; VStd None; VJson None;
   VSlice None; VStruct [0%nat; 1%nat]; VFloat (FFin false 0 0); VPtr (Some 7%nat)].
Definition c_types : list vty :=
  [Var (TInt (Signed 8)); Var TString; Var TBool; Var (TPtr (TInt (Signed 8))); Var (TPtr (TPtr TString)); Var (TSlice (TInt (Signed 8))); Var (TInt (Signed 8)); Var TTime; Var TStd; Var (TJsonPtr KBool);
   Var (TSlice (TInt (Signed 8))); Var (TStruct 1 [(plain (B"n"), TInt (Signed 8)); (plain (B"s"), TString)]); Var (TFloat 32); Var (TPtr TTime)].
Definition c_env (n : nat) : list (finfo * gty) := match n with 1%nat => [(plain (B"n"), TInt (Signed 8)); (plain (B"s"), TString)] | _ => [] end.
Definition c_time (s : bytes) : option (option bytes) := if bseq s (B"""now""") then Some (Some (B"12:00")) else None.
Definition c_us (s : bytes) : bool := existsb (beq ","%byte) s.
Notation c_unm := (Unmarshal c_env by_name c_us (fun _ => false) (fun s => bseq s (B"si")) (fun s => Some s) c_time (fun s => negb (bseq s (B"[]")))).
Notation c_case th := (th c_env by_name c_us (fun _ => false) (fun s => bseq s (B"si")) (fun s => Some s) c_time (fun s => negb (bseq s (B"[]")))).
Notation c_converts := (converts (normalize_currency c_us (fun _ => false)) (fun s => bseq s (B"si")) (fun s => Some s)).
Lemma c_env_ok : env_ok c_env. Proof. intros [|[|n]]; cbn; auto. Qed.
Lemma c_mem_ok : mem_ok c_env c_types c_mem.
Proof. unfold mem_ok, c_mem, c_types. repeat (constructor; try reflexivity; try (cbn; lia)). Qed.
Definition c_doc (j : json) : json := JDict 0 [(B"k", j)].
Lemma c_sel j : selected (c_doc j) [B"k"] j. Proof. left. split; [discriminate|reflexivity]. Qed.


Lemma c_digits s : forallb (fun b => (48 <=? bz b) && (bz b <=? 57)) s = true -> s <> [] -> digits s.
Proof. intros H N. split; [exact N|]. apply Forall_forall. intros b I. rewrite forallb_forall in H. specialize (H b I). apply andb_prop in H as [H1 H2]. apply Z.leb_le in H1, H2. split; assumption. Qed.

(** 300 into an int8; 5.25 into a string; "-1,000" into an int8; "Yes" into a *JSONBool. *)
Example C43_converts_example :
  c_converts (JInt 300) (TInt (Signed 8)) (VInt 44)
  /\ c_converts (JFloat (FFin true (21 * 2 ^ 48) (-50)) 64) (TInt (Signed 8)) (VInt (-5))
  /\ c_converts (JString (B"-1,000")) (TInt (Signed 8)) (VInt 24)
  /\ c_converts (JString (B"Yes")) (TJsonPtr KBool) (VJson (Some (JBool true)))
  /\ c_converts (JInt (-12)) TString (VString (B"-12")).
Proof.
  split; [|split; [|split; [|split]]].
  - constructor; [left; reflexivity|]. split; [lia|]. exists 1. reflexivity.
  - apply cv_float_int with (z := -5); [left; reflexivity| |].
    + exists true, (21 * 2 ^ 48), (-50), 5. split; [reflexivity|]. split; [lia|]. split; [split; vm_compute; congruence|]. split; [reflexivity|lia].
    + split; [lia|]. exists 0. reflexivity.
  - apply cv_string_int with (z := -1000); [discriminate|left; reflexivity| |lia|].
    + apply (nu_minus (B"1000")); apply c_digits; [reflexivity|discriminate].
    + split; [lia|]. exists (-4). reflexivity.
  - constructor. split; [intros _|reflexivity]. right. left. constructor; [right; cbn; lia|]. repeat (constructor; [left; reflexivity|]). constructor.
  - constructor; [|left; reflexivity]. exists (B"12"). split; [split; [apply c_digits; [reflexivity|discriminate]|right; discriminate]|]. right. split; [reflexivity|]. split; [reflexivity|lia].
Qed.

Example C43_converted_example : exists m', c_unm 1%nat c_mem (TInt (Signed 8)) 0%nat (c_doc (JInt 300)) [B"k"] = TopOk m' /\ written c_mem 0%nat (VInt 44) m'.
Proof. apply C43_converted with (j := JInt 300); [cbn; lia|apply c_sel|apply C43_converts_example]. Qed.
Example C43_table_functional_example : forall c, c_converts (JInt 300) (TInt (Signed 8)) c -> c = VInt 44.
Proof. intros c H. eapply C43_table_functional; [exact H|apply C43_converts_example]. Qed.
Example C43_ignored_example : c_unm 1%nat c_mem (TInt (Signed 8)) 0%nat (JString []) [] = TopOk c_mem.
Proof. eapply C43_ignored; [right; repeat split|exact Logic.I]. Qed.
Example C43_mismatched_example : c_unm 1%nat c_mem (TSlice (TInt (Signed 8))) 5%nat (c_doc (JInt 3)) [B"k"] = TopErr c_mem EMismatch.
Proof. eapply C43_mismatched; [apply c_sel|exact Logic.I]. Qed.
Example C43_mismatched_json_example : exists m', c_unm 1%nat c_mem (TJsonPtr KBool) 9%nat (c_doc (JInt 3)) [B"k"] = TopErr m' EMismatch /\ written c_mem 9%nat (VJson (Some (JBool false))) m'.
Proof. apply (C43_mismatched_json c_env by_name c_us (fun _ => false) (fun s => bseq s (B"si")) (fun s => Some s) c_time (fun s => negb (bseq s (B"[]"))) 0%nat c_mem KBool 9%nat (c_doc (JInt 3)) [B"k"] (JInt 3) None); [reflexivity|apply c_sel|split; discriminate]. Qed.
Example C43_no_number_example : c_unm 1%nat c_mem (TInt (Signed 8)) 0%nat (JString (B"12x")) [] = TopErr c_mem ENumber.
Proof.
  eapply C43_no_number; [right; repeat split|]. split; [discriminate|]. intros z H. exfalso.
  change (normalize_currency _ _ _) with (B"12x") in H. assert (X : forall ds, B"12x" = ds -> ~ digits ds).
  { intros ds <- [_ F]. inversion F as [|? ? _ F1]; subst. inversion F1 as [|? ? _ F2]; subst. inversion F2 as [|? ? D _]; subst. unfold digit in D. cbn in D. lia. }
  inversion H as [ds D E|ds D E|ds D E]. exact (X _ eq_refl D).
Qed.
Example C43_no_float_example : c_unm 1%nat c_mem (TFloat 32) 0%nat (JString (B"1__2")) [] = TopErr c_mem ENumber.
Proof.
  eapply C43_no_number; [right; repeat split|]. split; [discriminate|]. intros g H. apply FloatSyntax.parse_float_iff in H. vm_compute in H. discriminate H.
Qed.
Example C43_crashes_example : c_unm 1%nat c_mem (TInt (Unsigned 16)) 0%nat (c_doc (JBool true)) [B"k"] = TopPanic.
Proof. eapply C43_crashes; [apply c_sel|exact Logic.I]. Qed.
Example C43_unmarshaler_example : c_unm 1%nat c_mem TStd 8%nat (JArray []) [] = TopErr c_mem EStd
  /\ exists m', c_unm 1%nat c_mem TStd 8%nat (JArray [JInt 1]) [] = TopOk m' /\ written c_mem 8%nat (VStd (Some (B"[1]"))) m'.
Proof.
  split.
  - apply (c_case C43_unmarshaler 0%nat c_mem 8%nat (JArray []) [] (JArray []) None); try reflexivity; try discriminate. right. repeat split.
  - apply (c_case C43_unmarshaler 0%nat c_mem 8%nat (JArray [JInt 1]) [] (JArray [JInt 1]) None); try reflexivity; try discriminate. right. repeat split.
Qed.
Example C43_time_example : c_unm 1%nat c_mem TTime 7%nat (JArray []) [] = TopErr c_mem EStd.
Proof. apply (c_case C43_time 0%nat c_mem 7%nat (JArray []) [] (JArray []) None); try reflexivity; try discriminate. right. repeat split. Qed.
Example C43_pointer_to_time_example : exists m', c_unm 1%nat c_mem (TPtr TTime) 13%nat (JString (B"now")) [] = TopOk m' /\ written c_mem 7%nat (VTime (Some (B"12:00"))) m'.
Proof. apply (c_case C43_pointer_to_time 0%nat c_mem 13%nat 7%nat (JString (B"now")) [] (B"now") None); try reflexivity. right. repeat split. Qed.
Example C43_keys_example : (exists e, c_unm 1%nat c_mem TTime 7%nat (c_doc JNull) [B"x"] = TopGet e)
  /\ c_unm 9%nat c_mem TString 1%nat (c_doc (JString (B"v"))) [B"k"] = c_unm 9%nat c_mem TString 1%nat (JString (B"v")) [].
Proof.
  split; [eapply (c_case C43_keys 1%nat c_mem TTime 7%nat (c_doc JNull) [B"x"]); [discriminate|reflexivity]|].
  apply (c_case C43_keys 9%nat c_mem TString 1%nat (c_doc (JString (B"v"))) [B"k"]); [discriminate|reflexivity|exact Logic.I].
Qed.
Example C43_null_example : exists m', c_unm 1%nat c_mem (TStruct 1 (c_env 1)) 11%nat (JInt 5) [] = TopOk m' /\ zero_var m' (TStruct 1 (c_env 1)) 11%nat /\ length m' = 14%nat.
Proof. eapply (C43_null c_env) with (T := c_types); [apply c_mem_ok|reflexivity|cbn; auto|right; split; [reflexivity|exact Logic.I]]. Qed.
Example C43_pointer_example : c_unm 2%nat c_mem (TPtr (TInt (Signed 8))) 3%nat (c_doc (JInt 300)) [B"k"] = c_unm 1%nat c_mem (TInt (Signed 8)) 0%nat (c_doc (JInt 300)) [B"k"].
Proof. eapply C43_pointer with (T := c_types); [apply c_env_ok|apply c_mem_ok|reflexivity|exact Logic.I|reflexivity|apply c_sel|exact Logic.I|discriminate]. Qed.
Example C43_nil_pointer_example : exists m1 b, leads_to_new c_mem 4%nat (VPtr (Some b)) (TPtr TString) b m1
  /\ c_unm 3%nat c_mem (TPtr (TPtr TString)) 4%nat (JString (B"s")) [] = c_unm 2%nat m1 (TPtr TString) b (JString (B"s")) [].
Proof. apply (c_case C43_nil_pointer) with (T := c_types) (t := TPtr TString) (j := JString (B"s")); [apply c_env_ok|apply c_mem_ok|reflexivity|exact Logic.I|reflexivity|right; repeat split|exact Logic.I|discriminate]. Qed.
Example C43_string_into_slice_example : exists m1, written c_mem 5%nat (VSlice (Some ([0%nat; 6%nat], 1%nat))) m1
  /\ c_unm 2%nat c_mem (TSlice (TInt (Signed 8))) 5%nat (JString (B"9")) [] = c_unm 1%nat m1 (TInt (Signed 8)) 0%nat (JString (B"9")) [].
Proof. eapply C43_string_into_slice; [reflexivity|right; repeat split]. Qed.
Example C43_string_into_empty_slice_example : exists m1 b, leads_to_new c_mem 10%nat (VSlice (Some ([b], 1%nat))) (TInt (Signed 8)) b m1
  /\ c_unm 2%nat c_mem (TSlice (TInt (Signed 8))) 10%nat (JString (B"9")) [] = c_unm 1%nat m1 (TInt (Signed 8)) b (JString (B"9")) [].
Proof. apply (c_case C43_string_into_empty_slice) with (t := TInt (Signed 8)) (s := B"9") (sl := None); [apply c_env_ok|exact Logic.I|reflexivity|left; reflexivity|right; repeat split]. Qed.
