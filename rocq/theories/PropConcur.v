(** C51: goroutines that read the same documents. *)
From Verif Require Import Base Strconv SortedMap Json SpecJson Printer PrintFacts Heap SpecHeap Concur SpecConcur ConcurFacts.

Lemma run_threads {A} h sched (ps : list (prog A)) h' ts' : run sched h (map Run ps) = (h', ts') ->
  same_objects h h' /\ forall i p, nth_error ps i = Some p -> exists t, nth_error ts' i = Some t /\ tinv h h' t /\ tden h t = den h p /\ (tlen h t <= len h p - turns i sched)%nat.
Proof.
  intros E. destruct (run_inv h sched h (map Run ps) h' ts' (same_refl h)) as (S & I & R); [|exact E|].
  - intros i t Et. rewrite nth_error_map in Et. destruct (nth_error ps i); [|discriminate]. injection Et as <-. exact Logic.I.
  - split; [exact S|]. intros i p Ep. destruct (R i (Run p)) as (t & Et & D & L & _); [rewrite nth_error_map, Ep; reflexivity|].
    exists t. repeat split; try assumption. eapply I, Et.
Qed.

(** Whatever the clients do (short of changing documents) and whatever the
    schedule: a goroutine that has returned has returned what it returns when it
    runs alone, and one that has panicked panics alone too. *)
Theorem C51_as_if_alone {A} h sched (ps : list (prog A)) h' ts' i p t : run sched h (map Run ps) = (h', ts') ->
  nth_error ps i = Some p -> nth_error ts' i = Some t -> over t ->
  exists n h1, run (repeat 0%nat n) h [Run p] = (h1, [t]).
Proof.
  intros E Ep Et O. destruct (run_threads _ _ _ _ _ E) as [S R]. destruct (R i p Ep) as (t0 & Et0 & I & D & L). rewrite Et in Et0. injection Et0 as <-.
  destruct (run (repeat 0%nat (len h p)) h [Run p]) as [h1 ts1] eqn:E1. exists (len h p), h1. rewrite E1. f_equal.
  destruct (run_threads h (repeat 0%nat (len h p)) [p] h1 ts1 E1) as [S1 R1]. destruct (R1 0%nat p eq_refl) as (t1 & Et1 & I1 & D1 & L1).
  assert (T0 : turns 0 (repeat 0%nat (len h p)) = len h p).
  { unfold turns. generalize (len h p). induction n as [|n IH]; [reflexivity|]. cbn. rewrite IH. reflexivity. }
  rewrite T0 in L1. assert (O1 : over t1) by (eapply tlen_zero; [exact S1|exact I1|lia]).
  assert (t1 = t) as ->.
  { pose proof (over_den h _ O) as X. pose proof (over_den h _ O1) as X1. rewrite D in X. rewrite D1 in X1. destruct (den h p); congruence. }
  assert (length ts1 = 1%nat) as Len.
  { clear - E1. assert (G : forall sched h (ts : list (thread A)) h1 ts1, run sched h ts = (h1, ts1) -> length ts1 = length ts); [|apply G in E1; exact E1].
    induction sched as [|i sched IH]; intros h0 ts0 h2 ts2 E; cbn [run] in E; [injection E as _ <-; reflexivity|].
    destruct (nth_error ts0 i) as [t|]; [|eapply IH, E]. destruct (tstep h0 t) as [h3 t']. apply IH in E. rewrite E.
    clear. revert i. induction ts0 as [|x ts IH]; intros [|i]; cbn; [reflexivity|reflexivity|reflexivity|f_equal; apply IH]. }
  destruct ts1 as [|x [|]]; try discriminate Len. cbn in Et1. injection Et1 as ->. reflexivity.
Qed.

(** Nobody waits: there is a number of turns after which a goroutine is over,
    whatever the others do. *)
Theorem C51_wait_free {A} h (p : prog A) : exists N, forall sched ps h' ts' i, run sched h (map Run ps) = (h', ts') ->
  nth_error ps i = Some p -> (N <= turns i sched)%nat -> exists t, nth_error ts' i = Some t /\ over t.
Proof.
  exists (len h p). intros sched ps h' ts' i E Ep T. destruct (run_threads _ _ _ _ _ E) as [S R]. destruct (R i p Ep) as (t & Et & I & D & L).
  exists t. split; [exact Et|]. eapply tlen_zero; [exact S|exact I|lia].
Qed.

(** ** String *)

Lemma string_widths j : String_ (with_widths j) = String_ j.
Proof.
  unfold String_. induction j as [|x|z|f bit|s|l IH|nid kvs IH|n] using json_ind'; try reflexivity.
  - cbn [with_widths build_string]. unfold float_string. destruct (Z.eqb_spec bit 32); reflexivity.
  - cbn [with_widths]. rewrite !build_array. f_equal. f_equal. generalize 0%nat as i. induction IH as [|v l Hv Hl IHl]; intros i; [reflexivity|].
    cbn [map arr_text]. rewrite Hv, IHl. reflexivity.
  - cbn [with_widths]. rewrite !build_dict. f_equal. f_equal. f_equal. generalize (if 0 <? nid then 1%nat else 0%nat) as i. induction IH as [|[k v] l Hv Hl IHl]; intros i; [reflexivity|].
    cbn [map fst snd dict_text] in *. rewrite Hv, IHl. reflexivity.
Qed.

Lemma den_str {A} h n : forall a j (k : option bytes -> prog A), read n h a = Some j -> den h (str_prog n a k) = den h (k (Some (String_ j))).
Proof.
  unfold String_. induction n as [|n IH]; intros a j k R; [discriminate|]. cbn [str_prog den]. cbn [read] in R.
  destruct (nth_error h a) as [c|] eqn:Ea; [|discriminate]. destruct c as [|b|z|f bit|s|rs|nid kvs|p]; cbn [option_map look] in *; try (injection R as <-; reflexivity).
  - injection R as <-. cbn [den]. rewrite Ea. reflexivity.
  - destruct (map_opt _ rs) as [l|] eqn:M; [|discriminate]. injection R as <-. rewrite build_array.
    change ("["%byte :: arr_text 0 l ++ ["]"%byte]) with (["["%byte] ++ arr_text 0 l ++ ["]"%byte]). rewrite app_assoc.
    match goal with |- den h (?go 0%nat ?ac rs) = _ =>
      assert (G : forall rs l idx acc, map_opt (fun r : ref => match r with Some x => read n h x | None => None end) rs = Some l ->
        den h (go idx acc rs) = den h (k (Some ((acc ++ arr_text idx l) ++ ["]"%byte])))); [|apply G, M] end.
    clear rs l M Ea. induction rs as [|[x|] rs IHr]; intros l idx acc M; cbn [map_opt] in M.
    + injection M as <-. cbn [arr_text]. rewrite app_nil_r. reflexivity.
    + destruct (read n h x) as [v|] eqn:Rx; [|discriminate]. destruct (map_opt _ rs) as [l'|] eqn:M'; [|discriminate]. injection M as <-.
      rewrite (IH x v _ Rx). rewrite (IHr l' _ _ eq_refl). cbn [arr_text]. rewrite <- !app_assoc. reflexivity.
    + discriminate.
  - destruct (map_opt _ kvs) as [l|] eqn:M; [|discriminate]. injection R as <-. rewrite build_dict.
    set (pre := if 0 <? nid then quote_string jnid_key ++ [":"%byte] ++ format_int nid else []).
    assert (E : forall idx, "{"%byte :: (pre ++ dict_text idx l) ++ ["}"%byte] = ((["{"%byte] ++ pre) ++ dict_text idx l) ++ ["}"%byte]) by (intros idx; cbn [app]; rewrite <- !app_assoc; reflexivity).
    rewrite E. clear E.
    match goal with |- den h (?go ?i ?ac kvs) = _ =>
      assert (G : forall kvs l idx acc, map_opt (fun kv : bytes * ref => option_map (pair (fst kv)) (match snd kv with Some x => read n h x | None => None end)) kvs = Some l ->
        den h (go idx acc kvs) = den h (k (Some ((acc ++ dict_text idx l) ++ ["}"%byte])))); [|apply G, M] end.
    clear kvs l M Ea. induction kvs as [|[key [x|]] kvs IHr]; intros l idx acc M; cbn [map_opt fst snd] in M.
    + injection M as <-. cbn [dict_text]. rewrite app_nil_r. reflexivity.
    + destruct (read n h x) as [v|] eqn:Rx; [|discriminate]. cbn [option_map] in M. destruct (map_opt _ kvs) as [l'|] eqn:M'; [|discriminate]. injection M as <-.
      rewrite (IH x v _ Rx). rewrite (IHr l' _ _ eq_refl). cbn [dict_text]. rewrite <- !app_assoc. reflexivity.
    + discriminate.
Qed.

Lemma nth_error_ext {A} (l l' : list A) : (forall n, nth_error l n = nth_error l' n) -> l = l'.
Proof.
  revert l'. induction l as [|x l IH]; intros [|y l'] H; [reflexivity|discriminate (H 0%nat)|discriminate (H 0%nat)|].
  f_equal; [injection (H 0%nat) as E; exact E|]. apply IH. intros n. exact (H (S n)).
Qed.

Lemma same_read h h' n : same_objects h h' -> forall a j, read n h a = Some j -> exists j', read n h' a = Some j' /\ with_widths j' = with_widths j.
Proof.
  intros S. induction n as [|n IH]; intros a j R; [discriminate|]. cbn [read] in R |- *.
  destruct (nth_error h a) as [c|] eqn:Ea; [|discriminate]. destruct (proj2 S a c Ea) as [E|(f & b & -> & N1 & N2 & E)]; rewrite E.
  2:{ injection R as <-. exists (JFloat f 64). split; [reflexivity|]. cbn. destruct (Z.eqb_spec b 32); [contradiction|reflexivity]. }
  destruct c as [|b|z|f bit|s|rs|nid kvs|p]; try (injection R as <-; eexists; split; reflexivity).
  - destruct (map_opt _ rs) as [l|] eqn:M; [|discriminate]. injection R as <-. clear Ea E.
    assert (X : exists l', map_opt (fun r : ref => match r with Some x => read n h' x | None => None end) rs = Some l' /\ map with_widths l' = map with_widths l).
    { revert l M. induction rs as [|[x|] rs IHr]; intros l M; cbn [map_opt] in M |- *; [injection M as <-; exists []; split; reflexivity| |discriminate].
      destruct (read n h x) as [v|] eqn:Rx; [|discriminate]. destruct (map_opt _ rs) as [l0|] eqn:M'; [|discriminate]. injection M as <-.
      destruct (IH x v Rx) as (v' & -> & Ev). destruct (IHr l0 eq_refl) as (l' & -> & El). exists (v' :: l'). split; [reflexivity|]. cbn. congruence. }
    destruct X as (l' & -> & El). exists (JArray l'). split; [reflexivity|]. cbn [with_widths]. congruence.
  - destruct (map_opt _ kvs) as [l|] eqn:M; [|discriminate]. injection R as <-. clear Ea E.
    assert (X : exists l', map_opt (fun kv : bytes * ref => option_map (pair (fst kv)) (match snd kv with Some x => read n h' x | None => None end)) kvs = Some l' /\
      map (fun kv => (fst kv, with_widths (snd kv))) l' = map (fun kv => (fst kv, with_widths (snd kv))) l).
    { revert l M. induction kvs as [|[key [x|]] kvs IHr]; intros l M; cbn [map_opt fst snd] in M |- *; [injection M as <-; exists []; split; reflexivity| |discriminate].
      destruct (read n h x) as [v|] eqn:Rx; [|discriminate]. cbn [option_map] in M. destruct (map_opt _ kvs) as [l0|] eqn:M'; [|discriminate]. injection M as <-.
      destruct (IH x v Rx) as (v' & -> & Ev). destruct (IHr l0 eq_refl) as (l' & -> & El). exists ((key, v') :: l'). split; [reflexivity|]. cbn. congruence. }
    destruct X as (l' & -> & El). exists (JDict nid l'). split; [reflexivity|]. cbn [with_widths]. congruence.
Qed.

(** Any number of goroutines call String, on the same document or on documents
    with common parts: under every schedule none panics, each that has returned
    has the text of its document, each has returned after enough turns of its
    own, and afterwards the documents are the same (up to the widths that had
    not been set), with the same text. *)
Theorem C51_string h n (docs : list (addr * json)) : (forall a j, In (a, j) docs -> read n h a = Some j) ->
  exists N, forall sched h' ts', run sched h (map (fun d => go_string n (fst d)) docs) = (h', ts') ->
    same_objects h h' /\
    forall i a j, nth_error docs i = Some (a, j) ->
      (exists t, nth_error ts' i = Some t /\ t <> Panic /\ (forall s, t = Run (Done s) -> s = Some (String_ j)) /\
        ((N <= turns i sched)%nat -> t = Run (Done (Some (String_ j))))) /\
      exists j', read n h' a = Some j' /\ with_widths j' = with_widths j /\ String_ j' = String_ j.
Proof.
  intros Rd. exists (list_max (map (fun d => len h (str_prog n (fst d) Done)) docs)). intros sched h' ts' E.
  replace (map (fun d => go_string n (fst d)) docs) with (map Run (map (fun d : addr * json => str_prog n (fst d) (@Done (option bytes))) docs)) in E by (rewrite map_map; reflexivity).
  destruct (run_threads _ _ _ _ _ E) as [S R]. split; [exact S|]. intros i a j Ed. pose proof (Rd a j (nth_error_In _ _ Ed)) as Ra. split.
  - destruct (R i (str_prog n a Done)) as (t & Et & I & D & L); [rewrite nth_error_map, Ed; reflexivity|].
    rewrite (den_str h n a j Done Ra) in D. cbn [den] in D. exists t. split; [exact Et|]. split; [intros ->; discriminate D|]. split.
    + intros s ->. cbn in D. congruence.
    + intros T. assert (len h (str_prog n a (@Done (option bytes))) <= list_max (map (fun d => len h (str_prog n (fst d) (@Done (option bytes)))) docs))%nat as Lm.
      { pose proof (proj1 (list_max_le (map (fun d => len h (str_prog n (fst d) (@Done (option bytes)))) docs) _) (le_n _)) as F.
        rewrite Forall_forall in F. apply F. apply in_map_iff. exists (a, j). split; [reflexivity|]. eapply nth_error_In, Ed. }
      assert (O : over t) by (eapply tlen_zero; [exact S|exact I|lia]). pose proof (over_den h t O) as X. rewrite D in X. exact X.
  - destruct (same_read h h' n S a j Ra) as (j' & Rj & W). exists j'. split; [exact Rj|]. split; [exact W|]. rewrite <- (string_widths j'), W. apply string_widths.
Qed.

(** If every float has a width (NewFloat, Marshal; or every float was printed
    before the goroutines were started) no goroutine ever writes. *)
Theorem C51_no_race {A} h sched (ps : list (prog A)) h' ts' : wide h -> run sched h (map Run ps) = (h', ts') ->
  h' = h /\ forall i t a, nth_error ts' i = Some t -> ~ writes_width t a.
Proof.
  intros W E. destruct (run_inv h sched h (map Run ps) h' ts' (same_refl h)) as (S & I & _); [|exact E|].
  - intros i t Et. rewrite nth_error_map in Et. destruct (nth_error ps i); [|discriminate]. injection Et as <-. exact Logic.I.
  - split.
    + apply nth_error_ext. intros a. destruct (nth_error h a) as [c|] eqn:Ea; [|apply (same_none _ _ _ S Ea)].
      destruct (proj2 S a c Ea) as [X|(f & b & -> & N1 & N2 & X)]; [exact X|]. exfalso. destruct (W a f b Ea); contradiction.
    + intros i t a Et (k & ->). pose proof (I i _ Et) as (f & b & Ea & N1 & N2). destruct (W a f b Ea); contradiction.
Qed.

(** Otherwise it is a data race: two goroutines print a parsed document, and
    there is a moment when one is about to write what the other is about to
    read. *)
Theorem C51_race_refuted : exists h j sched h' t0 t1, read 1 h 0 = Some j /\
  run sched h [go_string 1 0; go_string 1 0] = (h', [t0; t1]) /\ writes_width t0 0 /\ reads_width t1 0.
Proof.
  exists [CFloat (FFin false 3 (-1)) 0], (JFloat (FFin false 3 (-1)) 0), [0; 0; 0; 1]%nat. do 3 eexists.
  split; [reflexivity|]. split; [reflexivity|]. split; [eexists; reflexivity|]. left. eexists. reflexivity.
Qed.

(** ** Example: {"x": 1.5} printed by two goroutines that alternate *)
Definition cc_heap : heap := [CFloat (FFin false 6755399441055744 (-52)) 0; CDict 0 [(B "x", Some 0%nat)]].
Example C51_instance : exists j, read 2 cc_heap 1 = Some j /\
  exists h', run [0;1;0;1;0;1;0;1;0;1;0;1]%nat cc_heap [go_string 2 1; go_string 2 1] = (h', [Run (Done (Some (String_ j))); Run (Done (Some (String_ j)))]) /\ h' <> cc_heap.
Proof. eexists. split; [reflexivity|]. eexists. split; [reflexivity|discriminate]. Qed.

Print Assumptions C51_as_if_alone.
Print Assumptions C51_wait_free.
Print Assumptions C51_string.
Print Assumptions C51_no_race.
