(** Facts about methods that look at everything inside an object. *)
From Coq Require Import Lia.
From Verif Require Import Base Strconv SortedMap SortedMapFacts Json Access Printer Query Heap HeapFacts HeapFacts2 SpecHeap SpecShare ShareFacts Gotypes Equals Native HeapRead SpecNil.

Ltac dmap H l := match type of H with context [map_opt ?f ?r] => destruct (map_opt f r) as [l|] eqn:?M end.

Section Walk.
Context {E X : Type}.
Context (leaf : E -> cell -> X) (at_elem : E -> nat -> E) (at_member : E -> bytes -> E).
Context (arr : E -> list X -> X) (dict : E -> Z -> list (bytes * X) -> X).
Notation walk := (walk leaf at_elem at_member arr dict).
Notation walk_elems := (walk_elems at_elem).
Notation walk_members := (walk_members at_member).

Fixpoint jfold (e : E) (j : json) {struct j} : X :=
  match j with
  | JNull => leaf e CNull
  | JBool b => leaf e (CBool b)
  | JInt z => leaf e (CInt z)
  | JFloat f bit => leaf e (CFloat f bit)
  | JString s => leaf e (CString s)
  | JPtr n => leaf e (CPtr n)
  | JArray l => arr e ((fix go (i : nat) (l : list json) : list X := match l with [] => [] | v :: l' => jfold (at_elem e i) v :: go (S i) l' end) 0%nat l)
  | JDict nid kvs => dict e nid (map (fun kv => (fst kv, jfold (at_member e (fst kv)) (snd kv))) kvs)
  end.
Fixpoint folds (e : E) (i : nat) (l : list json) : list X := match l with [] => [] | v :: l' => jfold (at_elem e i) v :: folds e (S i) l' end.
Lemma jfold_array e l : jfold e (JArray l) = arr e (folds e 0%nat l).
Proof using. cbn [jfold]. f_equal. generalize 0%nat. induction l as [|v l IH]; intros i; [reflexivity|]. cbn [folds]. f_equal. apply IH. Qed.

Lemma elems_read (w : E -> addr -> outcome X) (rd : addr -> option json) (rs : list ref) : (forall x v e, rd x = Some v -> w e x = Returns (jfold e v)) ->
  forall l e i, map_opt (fun r : ref => match r with Some x => rd x | None => None end) rs = Some l -> walk_elems w e i rs = Returns (folds e i l).
Proof using.
  intros H. induction rs as [|[x|] rs IH]; intros l e i M; cbn [map_opt] in M; [injection M as <-; reflexivity| |discriminate M].
  destruct (rd x) as [v|] eqn:R; [|discriminate M]. dmap M vs; [|discriminate M]. injection M as <-.
  cbn [HeapRead.walk_elems folds]. rewrite (H _ _ _ R), (IH vs e (S i) eq_refl). reflexivity.
Qed.
Lemma members_read (w : E -> addr -> outcome X) (rd : addr -> option json) (rs : list (bytes * ref)) : (forall x v e, rd x = Some v -> w e x = Returns (jfold e v)) ->
  forall l e, map_opt (fun kv => option_map (pair (fst kv)) (match snd kv with Some x => rd x | None => None end)) rs = Some l ->
  walk_members w e rs = Returns (map (fun kv => (fst kv, jfold (at_member e (fst kv)) (snd kv))) l).
Proof using.
  intros H. induction rs as [|[k [x|]] rs IH]; intros l e M; cbn [map_opt fst snd option_map] in M; [injection M as <-; reflexivity| |discriminate M].
  destruct (rd x) as [v|] eqn:R; [|discriminate M]. cbn [option_map] in M. dmap M vs; [|discriminate M]. injection M as <-.
  cbn [HeapRead.walk_members map fst snd]. rewrite (H _ _ _ R), (IH vs e eq_refl). reflexivity.
Qed.
Lemma read_walk h n : forall a v e, read n h a = Some v -> walk n h e a = Returns (jfold e v).
Proof using.
  induction n as [|n IH]; intros a v e R; [discriminate R|]. cbn [read] in R. cbv zeta in R. cbn [HeapRead.walk].
  destruct (nth_error h a) as [[| | | | |rs|nid kvs|]|]; try discriminate R; try (injection R as <-; reflexivity).
  - dmap R l; [|discriminate R]. injection R as <-. rewrite (elems_read _ (read n h) rs IH l e 0%nat M), jfold_array. reflexivity.
  - dmap R l; [|discriminate R]. injection R as <-. rewrite (members_read _ (read n h) kvs IH l e M). reflexivity.
Qed.

Lemma elems_walk (w : E -> addr -> outcome X) (rd : addr -> option json) (rs : list ref) : (forall x e y, w e x = Returns y -> exists v, rd x = Some v) ->
  forall e i y, walk_elems w e i rs = Returns y -> exists l, map_opt (fun r : ref => match r with Some x => rd x | None => None end) rs = Some l.
Proof using.
  intros H. induction rs as [|[x|] rs IH]; intros e i y M; cbn [HeapRead.walk_elems] in M; [exists []; reflexivity| |discriminate M].
  destruct (w (at_elem e i) x) as [v| |] eqn:R; try discriminate M. destruct (walk_elems w e (S i) rs) as [vs| |] eqn:Q; try discriminate M.
  destruct (H _ _ _ R) as [v' Ev]. destruct (IH _ _ _ Q) as [l El]. exists (v' :: l). cbn [map_opt]. rewrite Ev, El. reflexivity.
Qed.
Lemma members_walk (w : E -> addr -> outcome X) (rd : addr -> option json) (rs : list (bytes * ref)) : (forall x e y, w e x = Returns y -> exists v, rd x = Some v) ->
  forall e y, walk_members w e rs = Returns y -> exists l, map_opt (fun kv => option_map (pair (fst kv)) (match snd kv with Some x => rd x | None => None end)) rs = Some l.
Proof using.
  intros H. induction rs as [|[k [x|]] rs IH]; intros e y M; cbn [HeapRead.walk_members] in M; [exists []; reflexivity| |discriminate M].
  destruct (w (at_member e k) x) as [v| |] eqn:R; try discriminate M. destruct (walk_members w e rs) as [vs| |] eqn:Q; try discriminate M.
  destruct (H _ _ _ R) as [v' Ev]. destruct (IH _ _ Q) as [l El]. exists ((k, v') :: l). cbn [map_opt fst snd]. rewrite Ev, El. reflexivity.
Qed.
Lemma walk_reads h n : forall a e x, walk n h e a = Returns x -> exists v, read n h a = Some v.
Proof using.
  induction n as [|n IH]; intros a e x R; [discriminate R|]. cbn [HeapRead.walk] in R. cbn [read]. cbv zeta.
  destruct (nth_error h a) as [[| | | | |rs|nid kvs|]|]; try discriminate R; try (eexists; reflexivity).
  - destruct (walk_elems (walk n h) e 0 rs) as [l| |] eqn:M; try discriminate R. destruct (elems_walk _ (read n h) rs IH _ _ _ M) as [vs Ev]. rewrite Ev. eexists. reflexivity.
  - destruct (walk_members (walk n h) e kvs) as [l| |] eqn:M; try discriminate R. destruct (members_walk _ (read n h) kvs IH _ _ M) as [vs Ev]. exists (JDict nid vs). exact (f_equal (option_map (JDict nid)) Ev).
Qed.
Lemma walk_returns h n a e x : walk n h e a = Returns x -> exists v, read n h a = Some v /\ x = jfold e v.
Proof using. intros R. destruct (walk_reads h n a e x R) as [v Ev]. exists v. split; [exact Ev|]. rewrite (read_walk h n a v e Ev) in R. congruence. Qed.

Definition settled {A} (o o' : outcome A) : Prop := o <> Runs -> o' = o.
Lemma elems_mono (w w' : E -> addr -> outcome X) rs : (forall e x, settled (w e x) (w' e x)) -> forall e i, settled (walk_elems w e i rs) (walk_elems w' e i rs).
Proof using.
  intros H. induction rs as [|[x|] rs IH]; intros e i S; cbn [HeapRead.walk_elems] in *; try reflexivity.
  pose proof (H (at_elem e i) x) as Hx. destruct (w (at_elem e i) x) as [y| |]; [rewrite Hx by discriminate| rewrite Hx by discriminate; reflexivity|contradiction S; reflexivity].
  pose proof (IH e (Datatypes.S i)) as Hr. destruct (walk_elems w e (Datatypes.S i) rs) as [l| |]; [rewrite Hr by discriminate; reflexivity|rewrite Hr by discriminate; reflexivity|contradiction S; reflexivity].
Qed.
Lemma members_mono (w w' : E -> addr -> outcome X) rs : (forall e x, settled (w e x) (w' e x)) -> forall e, settled (walk_members w e rs) (walk_members w' e rs).
Proof using.
  intros H. induction rs as [|[k [x|]] rs IH]; intros e S; cbn [HeapRead.walk_members] in *; try reflexivity.
  pose proof (H (at_member e k) x) as Hx. destruct (w (at_member e k) x) as [y| |]; [rewrite Hx by discriminate| rewrite Hx by discriminate; reflexivity|contradiction S; reflexivity].
  pose proof (IH e) as Hr. destruct (walk_members w e rs) as [l| |]; [rewrite Hr by discriminate; reflexivity|rewrite Hr by discriminate; reflexivity|contradiction S; reflexivity].
Qed.
Lemma walk_S n h e a : walk (S n) h e a =
  match nth_error h a with
  | None => Panics
  | Some (CArray rs) => match walk_elems (walk n h) e 0%nat rs with Returns l => Returns (arr e l) | Panics => Panics | Runs => Runs end
  | Some (CDict nid kvs) => match walk_members (walk n h) e kvs with Returns l => Returns (dict e nid l) | Panics => Panics | Runs => Runs end
  | Some c => Returns (leaf e c)
  end.
Proof using. reflexivity. Qed.
Lemma walk_step h n : forall e a, settled (walk n h e a) (walk (S n) h e a).
Proof using.
  induction n as [|n IH]; intros e a S; [contradiction S; reflexivity|]. rewrite (walk_S (Datatypes.S n)). rewrite walk_S in S |- *.
  destruct (nth_error h a) as [[| | | | |rs|nid kvs|]|]; try reflexivity.
  - pose proof (elems_mono _ _ rs IH e 0%nat) as Hr. destruct (walk_elems (walk n h) e 0 rs); [rewrite Hr by discriminate; reflexivity|rewrite Hr by discriminate; reflexivity|contradiction S; reflexivity].
  - pose proof (members_mono _ _ kvs IH e) as Hr. destruct (walk_members (walk n h) e kvs); [rewrite Hr by discriminate; reflexivity|rewrite Hr by discriminate; reflexivity|contradiction S; reflexivity].
Qed.
Lemma walk_mono h e a n k : (n <= k)%nat -> settled (walk n h e a) (walk k h e a).
Proof using.
  induction 1 as [|k L IH]; intros S; [reflexivity|]. specialize (IH S). rewrite <- IH. apply walk_step. rewrite IH. exact S.
Qed.

Lemma elems_panic (w : E -> addr -> outcome X) (P : addr -> Prop) rs : (forall e x, In (Some x) rs -> w e x = Panics -> P x) ->
  forall e i, walk_elems w e i rs = Panics -> In None rs \/ exists x, In (Some x) rs /\ P x.
Proof using.
  induction rs as [|[x|] rs IH]; intros H e i M; cbn [HeapRead.walk_elems] in M; [discriminate M| |left; left; reflexivity].
  destruct (w (at_elem e i) x) eqn:R; [|right; exists x; split; [left; reflexivity|eapply H; [left; reflexivity|exact R]]|discriminate M].
  destruct (walk_elems w e (S i) rs) eqn:Q; try discriminate M. destruct (IH (fun e x I => H e x (or_intror I)) _ _ Q) as [I|(y & I & Py)]; [left; right; exact I|right; exists y; split; [right; exact I|exact Py]].
Qed.
Lemma members_panic (w : E -> addr -> outcome X) (P : addr -> Prop) rs : (forall e x, In (Some x) (map snd rs) -> w e x = Panics -> P x) ->
  forall e, walk_members w e rs = Panics -> In None (map snd rs) \/ exists x, In (Some x) (map snd rs) /\ P x.
Proof using.
  induction rs as [|[k [x|]] rs IH]; intros H e M; cbn [HeapRead.walk_members map snd] in *; [discriminate M| |left; left; reflexivity].
  destruct (w (at_member e k) x) eqn:R; [|right; exists x; split; [left; reflexivity|eapply H; [left; reflexivity|exact R]]|discriminate M].
  destruct (walk_members w e rs) eqn:Q; try discriminate M. destruct (IH (fun e x I => H e x (or_intror I)) _ Q) as [I|(y & I & Py)]; [left; right; exact I|right; exists y; split; [right; exact I|exact Py]].
Qed.
Lemma nil_step h a c x : nth_error h a = Some c -> In (Some x) (cell_refs c) -> nil_inside h x -> nil_inside h a.
Proof using. intros G I (b & d & R & Gb & Ib). exists b, d. split; [eapply reaches_trans; [eapply reaches_ref; eassumption|exact R]|split; assumption]. Qed.
Lemma walk_panics h n : heap_wf h -> forall e a, (a < length h)%nat -> walk n h e a = Panics -> nil_inside h a.
Proof using.
  intros W. induction n as [|n IH]; intros e a L R; [discriminate R|]. cbn [HeapRead.walk] in R. destruct (nth_error h a) as [c|] eqn:G; [|apply nth_error_None in G; lia].
  assert (D : In None (cell_refs c) \/ exists x, In (Some x) (cell_refs c) /\ nil_inside h x).
  { assert (H : forall e x, In (Some x) (cell_refs c) -> walk n h e x = Panics -> nil_inside h x).
    { intros e' x I. apply IH. eapply W; [eapply nth_error_In, G|exact I]. }
    destruct c as [| | | | |rs|nid kvs|]; try discriminate R; cbn [cell_refs] in *.
    - destruct (walk_elems (walk n h) e 0 rs) eqn:M; try discriminate R. eapply elems_panic; [exact H|exact M].
    - destruct (walk_members (walk n h) e kvs) eqn:M; try discriminate R. eapply members_panic; [exact H|exact M]. }
  destruct D as [D|(x & I & D)]; [|eapply nil_step; eassumption]. exists a, c. split; [apply reaches_refl|split; assumption].
Qed.

Lemma elems_runs (w : E -> addr -> outcome X) rs : forall e i, walk_elems w e i rs = Runs -> exists x e', In (Some x) rs /\ w e' x = Runs.
Proof using.
  induction rs as [|[x|] rs IH]; intros e i M; cbn [HeapRead.walk_elems] in M; try discriminate M.
  destruct (w (at_elem e i) x) eqn:R; [|discriminate M|exists x, (at_elem e i); split; [left; reflexivity|exact R]].
  destruct (walk_elems w e (S i) rs) eqn:Q; try discriminate M. destruct (IH _ _ Q) as (y & e' & I & Py). exists y, e'. split; [right; exact I|exact Py].
Qed.
Lemma members_runs (w : E -> addr -> outcome X) rs : forall e, walk_members w e rs = Runs -> exists x e', In (Some x) (map snd rs) /\ w e' x = Runs.
Proof using.
  induction rs as [|[k [x|]] rs IH]; intros e M; cbn [HeapRead.walk_members map snd] in *; try discriminate M.
  destruct (w (at_member e k) x) eqn:R; [|discriminate M|exists x, (at_member e k); split; [left; reflexivity|exact R]].
  destruct (walk_members w e rs) eqn:Q; try discriminate M. destruct (IH _ Q) as (y & e' & I & Py). exists y, e'. split; [right; exact I|exact Py].
Qed.
End Walk.

(** Chains of objects that contain each other. *)
Inductive chain (h : heap) : addr -> list addr -> Prop :=
| chain_nil a : chain h a []
| chain_cons a c x l : nth_error h a = Some c -> In (Some x) (cell_refs c) -> chain h x l -> chain h a (a :: l).
Lemma chain_in h a l : chain h a l -> forall b, In b l -> (b < length h)%nat /\ reaches h a b.
Proof.
  induction 1 as [a|a c x l G I C IH]; intros b Ib; [destruct Ib|]. destruct Ib as [<-|Ib].
  - split; [apply nth_error_Some; rewrite G; discriminate|apply reaches_refl].
  - destruct (IH b Ib) as [L R]. split; [exact L|]. eapply reaches_trans; [eapply reaches_ref; eassumption|exact R].
Qed.
Lemma chain_start h a b l l' : chain h a (l ++ b :: l') -> chain h b (b :: l').
Proof.
  revert a. induction l as [|y l IH]; intros a C; cbn [app] in C; inversion C as [|? ? x ? G I C']; subst; [exact C|]. eapply IH, C'.
Qed.
Lemma reaches_step_nonempty h a c x b : nth_error h a = Some c -> In (Some x) (cell_refs c) -> reaches h x b -> exists p, leads h a p b /\ p <> [].
Proof.
  intros G I [p L]. destruct c as [| | | | |rs|nid kvs|]; try destruct I.
  - apply In_nth_error in I as [i I]. exists (Idx i :: p). split; [eapply leads_element; eassumption|discriminate].
  - cbn [cell_refs] in I. apply in_map_iff in I as ([k r] & Ek & I). cbn [snd] in Ek. subst r. exists (Key k :: p). split; [eapply leads_member; eassumption|discriminate].
Qed.
Lemma not_nodup_nat (l : list nat) : ~ NoDup l -> exists b l1 l2 l3, l = l1 ++ b :: l2 ++ b :: l3.
Proof.
  induction l as [|x l IH]; intros N; [destruct N; constructor|]. destruct (in_dec Nat.eq_dec x l) as [I|I].
  - apply in_split in I as (l2 & l3 & ->). exists x, [], l2, l3. reflexivity.
  - destruct IH as (b & l1 & l2 & l3 & ->); [intros M; apply N; constructor; assumption|]. exists b, (x :: l1), l2, l3. reflexivity.
Qed.
Lemma long_chain h a l : chain h a l -> (length h < length l)%nat -> cycle_inside h a.
Proof.
  intros C L. assert (D : ~ NoDup l).
  { intros N. assert (length l <= length (seq 0 (length h)))%nat; [|rewrite seq_length in *; lia]. apply NoDup_incl_length; [exact N|].
    intros b I. apply in_seq. destruct (chain_in _ _ _ C b I). lia. }
  apply not_nodup_nat in D as (b & l1 & l2 & l3 & ->). pose proof (chain_start _ _ _ _ _ C) as C2. inversion C2 as [|? c x ? G I C3]; subst.
  destruct (reaches_step_nonempty h b c x b G I) as (p & Lp & Np).
  { apply (chain_in _ _ _ C3 b). apply in_or_app. right. left. reflexivity. }
  exists b, p. split; [|split; assumption]. apply (chain_in _ _ _ C b). apply in_or_app. right. left. reflexivity.
Qed.

Section Walk2.
Context {E X : Type}.
Context (leaf : E -> cell -> X) (at_elem : E -> nat -> E) (at_member : E -> bytes -> E).
Context (arr : E -> list X -> X) (dict : E -> Z -> list (bytes * X) -> X).
Notation walk := (walk leaf at_elem at_member arr dict).

Lemma walk_runs h n : forall e a, walk n h e a = Runs -> exists l, chain h a l /\ length l = n.
Proof using.
  induction n as [|n IH]; intros e a R; [exists []; split; [constructor|reflexivity]|]. cbn [HeapRead.walk] in R. destruct (nth_error h a) as [c|] eqn:G; [|discriminate R].
  assert (D : exists x e', In (Some x) (cell_refs c) /\ walk n h e' x = Runs).
  { destruct c as [| | | | |rs|nid kvs|]; try discriminate R; cbn [cell_refs] in *.
    - destruct (walk_elems at_elem (walk n h) e 0 rs) eqn:M; try discriminate R. eapply elems_runs; exact M.
    - destruct (walk_members at_member (walk n h) e kvs) eqn:M; try discriminate R. eapply members_runs; exact M. }
  destruct D as (x & e' & I & Rx). destruct (IH _ _ Rx) as (l & C & L). exists (a :: l). split; [econstructor; eassumption|cbn [length]; congruence].
Qed.
Lemma walk_ends h e a n : walk n h e a <> Runs -> ends (fun k => walk k h e a) (walk n h e a).
Proof using. intros S. exists n. intros k L. apply walk_mono; assumption. Qed.

Lemma holds_no_nil h a v : holds h a v -> ~ nil_inside h a.
Proof using.
  intros H (b & c & R & G & I). destruct (reaches_holds _ _ _ _ H R) as [w [n Rb]]. destruct n; [discriminate Rb|]. cbn [read] in Rb. cbv zeta in Rb. rewrite G in Rb.
  assert (N : forall (rs : list ref) (l : list json), In None rs -> map_opt (fun r : ref => match r with Some x => read n h x | None => None end) rs = Some l -> False).
  { clear. intros rs. induction rs as [|r rs IH]; intros l I M; [destruct I|]. cbn [map_opt] in M. destruct I as [->|I]; [discriminate M|].
    destruct (match r with Some x => read n h x | None => None end); [|discriminate M]. dmap M l'; [|discriminate M]. exact (IH l' I eq_refl). }
  destruct c as [| | | | |rs|nid kvs|]; try destruct I; cbn [cell_refs] in I.
  - dmap Rb l; [|discriminate Rb]. exact (N rs l I M).
  - dmap Rb l; [|discriminate Rb]. clear - I M. revert l M. induction kvs as [|[k r] kvs IH]; intros l M; [destruct I|]. cbn [map_opt fst snd] in M. destruct I as [E|I]; [cbn in E; subst r; discriminate M|].
    destruct (option_map (pair k) (match r with Some x => read n h x | None => None end)); [|discriminate M]. dmap M l'; [|discriminate M]. apply (IH I l' eq_refl).
Qed.
Lemma holds_no_cycle h a v : holds h a v -> ~ cycle_inside h a.
Proof using. intros H (b & p & R & L & N). destruct (reaches_holds _ _ _ _ H R) as [w Hb]. apply N. eapply acyclic; eassumption. Qed.

Lemma walk_all h e a (f : json -> X) : heap_wf h -> (a < length h)%nat -> (forall v, jfold leaf at_elem at_member arr dict e v = f v) -> looks_at_all (fun k => walk k h e a) f h a.
Proof using.
  intros W L F. split; [|split; [|split; [|split]]].
  - intros x. split.
    + intros [n H]. specialize (H n (le_n n)). apply walk_returns in H as (v & Rv & ->). exists v. split; [exists n; exact Rv|apply F].
    + intros (v & [n Rv] & ->). rewrite <- F. rewrite <- (read_walk leaf at_elem at_member arr dict h n a v e Rv). apply walk_ends. rewrite (read_walk _ _ _ _ _ h n a v e Rv). discriminate.
  - intros [n H]. eapply walk_panics; [exact W|exact L|apply (H n (le_n n))].
  - intros H. destruct (walk_runs h (S (length h)) e a (H _)) as (l & C & Ll). eapply long_chain; [exact C|lia].
  - intros N C. set (n := S (length h)). destruct (walk n h e a) as [x| |] eqn:R.
    + exfalso. apply walk_returns in R as (v & Rv & _). eapply holds_no_nil; [exists n; exact Rv|exact N].
    + rewrite <- R. apply walk_ends. rewrite R. discriminate.
    + exfalso. apply C. destruct (walk_runs h n e a R) as (l & Cl & Ll). eapply long_chain; [exact Cl|unfold n in Ll; lia].
  - intros k. apply walk_ends.
Qed.
End Walk2.

(** Objects that stand for a value. *)
Lemma holds_iff h a : heap_wf h -> (a < length h)%nat -> (exists v, holds h a v) <-> ~ nil_inside h a /\ ~ cycle_inside h a.
Proof.
  intros W L. split; [intros [v H]; split; [eapply holds_no_nil|eapply holds_no_cycle]; exact H|]. intros [N C].
  pose proof (walk_panics (fun (_ : unit) _ => tt) (fun e _ => e) (fun e _ => e) (fun _ _ => tt) (fun _ _ _ => tt) h (S (length h)) W tt a L) as P.
  pose proof (walk_runs (fun (_ : unit) _ => tt) (fun e _ => e) (fun e _ => e) (fun _ _ => tt) (fun _ _ _ => tt) h (S (length h)) tt a) as Q.
  destruct (walk (fun (_ : unit) _ => tt) (fun e _ => e) (fun e _ => e) (fun _ _ => tt) (fun _ _ _ => tt) (S (length h)) h tt a) as [x| |] eqn:R.
  - apply walk_returns in R as (v & Rv & _). exists v. eexists. exact Rv.
  - destruct (N (P eq_refl)).
  - destruct (Q eq_refl) as (l & Cl & Ll). destruct C. eapply long_chain; [exact Cl|lia].
Qed.

(** The four methods are such walks. *)
Lemma fold_string v : jfold (fun _ : unit => leaf_string) (fun e _ => e) (fun e _ => e) (fun _ => string_arr) (fun _ => string_dict) tt v = String_ v.
Proof.
  induction v as [|b|z|f bit|s|l IH|nid kvs IH|n] using json_ind'; try reflexivity.
  - rewrite jfold_array. unfold String_. cbn [build_string]. unfold string_arr.
    assert (G : forall idx k, (fix go (idx : nat) (l : list bytes) : bytes :=
          match l with
          | [] => []
          | t :: l' => (if Nat.ltb 0 idx then [","%byte] else []) ++ t ++ go (S idx) l'
          end) idx (folds (fun _ : unit => leaf_string) (fun e _ => e) (fun e _ => e) (fun _ => string_arr) (fun _ => string_dict) tt k l) =
        (fix go (idx : nat) (l : list json) : bytes :=
              match l with
              | [] => []
              | v :: l' => (if Nat.ltb 0 idx then [","%byte] else []) ++ build_string v ++ go (S idx) l'
              end) idx l).
    { induction IH as [|v l Hv _ IHl]; intros idx k; [reflexivity|]. cbn [folds]. rewrite Hv. unfold String_. f_equal. f_equal. apply IHl. }
    rewrite G. reflexivity.
  - cbn [jfold]. unfold String_. cbn [build_string]. unfold string_dict.
    assert (G : forall idx, (fix go (idx : nat) (l : list (bytes * bytes)) : bytes :=
          match l with
          | [] => []
          | (k, t) :: l' => (if Nat.ltb 0 idx then [","%byte] else []) ++ quote_string k ++ [":"%byte] ++ t ++ go (S idx) l'
          end) idx (map (fun kv => (fst kv, jfold (fun _ : unit => leaf_string) (fun e _ => e) (fun e _ => e) (fun _ => string_arr) (fun _ => string_dict) tt (snd kv))) kvs) =
        (fix go (idx : nat) (kvs : list (bytes * json)) : bytes :=
              match kvs with
              | [] => []
              | (k, v) :: kvs' => (if Nat.ltb 0 idx then [","%byte] else [])
                                    ++ quote_string k ++ [":"%byte]
                                    ++ build_string v ++ go (S idx) kvs'
              end) idx kvs).
    { induction IH as [|[k v] l Hv _ IHl]; intros idx; [reflexivity|]. cbn [map fst snd] in *. rewrite Hv. unfold String_. do 4 f_equal. apply IHl. }
    rewrite G. reflexivity.
Qed.
Definition pretty_at (e : bool * nat) (v : json) : bytes :=
  if fst e then match v with JDict _ _ | JArray _ => [x0a] ++ pretty_string (snd e) v | _ => [" "%byte] ++ build_string v end else pretty_string (snd e) v.
Lemma fold_pretty v : forall e, jfold pretty_leaf (fun e _ => (false, (snd e + 1)%nat)) (fun e _ => (true, (snd e + 2)%nat)) pretty_arr pretty_dict e v = pretty_at e v.
Proof.
  induction v as [|b|z|f bit|s|l IH|nid kvs IH|n] using json_ind'; intros [b0 lv]; try (destruct b0; reflexivity).
  - rewrite jfold_array. unfold pretty_at. cbn [fst snd pretty_string]. unfold pretty_arr. cbn [fst snd].
    assert (G : forall idx k, (fix go (idx : nat) (l : list bytes) : bytes :=
          match l with
          | [] => []
          | t :: l' => (if Nat.ltb 0 idx then [","%byte] else []) ++ [x0a] ++ t ++ go (S idx) l'
          end) idx (folds pretty_leaf (fun e _ => (false, (snd e + 1)%nat)) (fun e _ => (true, (snd e + 2)%nat)) pretty_arr pretty_dict (b0, lv) k l) =
        (fix go (idx : nat) (l : list json) : bytes :=
              match l with
              | [] => []
              | v :: l' => (if Nat.ltb 0 idx then [","%byte] else [])
                             ++ [x0a] ++ pretty_string (lv + 1) v ++ go (S idx) l'
              end) idx l).
    { induction IH as [|v l Hv _ IHl]; intros idx k; [reflexivity|]. cbn [folds snd]. rewrite Hv. unfold pretty_at at 1. cbn [fst snd]. f_equal. f_equal. f_equal. apply IHl. }
    rewrite G. destruct b0, l; reflexivity.
  - cbn [jfold]. unfold pretty_at. cbn [fst snd pretty_string]. unfold pretty_dict. cbn [fst snd].
    assert (G : forall idx, (fix go (idx : nat) (l : list (bytes * bytes)) : bytes :=
          match l with
          | [] => []
          | (k, t) :: l' => (if Nat.ltb 0 idx then [","%byte] else [])
                              ++ [x0a] ++ tabs lv ++ [" "%byte; " "%byte]
                              ++ [""""%byte] ++ k ++ [""""%byte; ":"%byte] ++ t ++ go (S idx) l'
          end) idx (map (fun kv => (fst kv, jfold pretty_leaf (fun e _ => (false, (snd e + 1)%nat)) (fun e _ => (true, (snd e + 2)%nat)) pretty_arr pretty_dict (true, (lv + 2)%nat) (snd kv))) kvs) =
        (fix go (idx : nat) (kvs : list (bytes * json)) : bytes :=
              match kvs with
              | [] => []
              | (k, v) :: kvs' =>
                  (if Nat.ltb 0 idx then [","%byte] else [])
                    ++ [x0a] ++ tabs lv ++ [" "%byte; " "%byte]
                    ++ [""""%byte] ++ k ++ [""""%byte; ":"%byte]
                    ++ (match v with
                        | JDict _ _ | JArray _ => [x0a] ++ pretty_string (lv + 2) v
                        | _ => [" "%byte] ++ build_string v
                        end)
                    ++ go (S idx) kvs'
              end) idx kvs).
    { induction IH as [|[k v] l Hv _ IHl]; intros idx; [reflexivity|]. cbn [map fst snd] in *. rewrite Hv. unfold pretty_at at 1. cbn [fst snd]. rewrite <- IHl. reflexivity. }
    rewrite G. destruct b0, kvs; reflexivity.
Qed.
Lemma fold_native v : jfold (fun _ : unit => leaf_native) (fun e _ => e) (fun e _ => e)
    (fun _ l => Some (GSlice (Some (map GIface l)))) (fun _ _ l => Some (GMap (Some (map (fun kv => (fst kv, GIface (snd kv))) l)))) tt v = native v.
Proof.
  induction v as [|b|z|f bit|s|l IH|nid kvs IH|n] using json_ind'; try reflexivity.
  - rewrite jfold_array. cbn [native]. do 3 f_equal. generalize 0%nat as i. induction IH as [|v l Hv _ IHl]; intros i; [reflexivity|]. cbn [folds map]. rewrite Hv, IHl. reflexivity.
  - cbn [jfold native]. do 3 f_equal. rewrite map_map. induction IH as [|[k v] l Hv _ IHl]; [reflexivity|]. cbn [map fst snd] in *. rewrite Hv, IHl. reflexivity.
Qed.
Lemma fold_query v : forall key, jfold leaf_query (fun key i => sub_key key (format_int (Z.of_nat i))) sub_key
        (fun _ l => join_with "&"%byte l) (fun _ _ l => join_with "&"%byte (map snd l)) key v = query_string v key.
Proof.
  induction v as [|b|z|f bit|s|l IH|nid kvs IH|n] using json_ind'; intros key; try reflexivity.
  - rewrite jfold_array. cbn [query_string]. f_equal. change 0%Z with (Z.of_nat 0). generalize 0%nat as i. induction IH as [|v l Hv _ IHl]; intros i; [reflexivity|]. cbn [folds]. rewrite Hv, IHl.
    f_equal. replace (Z.of_nat i + 1)%Z with (Z.of_nat (S i)) by lia. reflexivity.
  - cbn [jfold query_string]. f_equal. rewrite map_map. induction IH as [|[k v] l Hv _ IHl]; [reflexivity|]. cbn [map fst snd] in *. rewrite Hv, IHl. reflexivity.
Qed.
