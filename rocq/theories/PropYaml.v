(** C41: YAML (yamlutils.go).  The YAML library is not in /repo: what the
    theorems need of it is a hypothesis, spelled out here. *)
From Verif Require Import Base Strconv Json SpecJson SpecPrint SpecRFC SpecText Printer Parser Yaml
  PrintFacts2 ParseInv PropParse PropRoundtrip.

(** Converted to YAML and back, the JSON text [t] becomes a JSON text that
    means whatever [t] means. *)
Definition keeps_meaning (L : yaml_lib) (t : bytes) : Prop :=
  exists t', yaml_to_json L (json_to_yaml L t) = Some t' /\
    forall v, rfc_text not_reserved t v -> rfc_text not_reserved t' v.

Lemma rfc_of_print v : json_ok v -> only_float64 v -> plain_json v -> no_reserved_key v ->
  exists v', rfc_text not_reserved (String_ v) v' /\ reads_as v v'.
Proof.
  intros Ho Hf Hp Hk. destruct (print_rfc not_reserved v Ho Hf Hp) as (v' & Hv & R).
  { intros nid kvs k Hs Hi ->. exact (Hk _ _ Hs Hi). }
  exists v'. split; [|exact R]. unfold String_.
  replace (build_string v) with ([] ++ build_string v ++ []) by (simpl; apply app_nil_r).
  constructor; [constructor | exact Hv | constructor].
Qed.

Lemma yaml_plain L v : plain_json v -> YAMLString L v = json_to_yaml L (String_ v).
Proof. intros Hp. destruct v; try reflexivity. exfalso. exact (proj1 (proj2 Hp) nid (sub_refl _)). Qed.

(** Reading the YAML of a plain JSON value gives the value back (up to what
    its JSON text loses as well).  Partial: relative to the library keeping
    the meaning of that one text. *)
Theorem C41_yaml_partial L v :
  json_ok v -> only_float64 v -> plain_json v -> no_reserved_key v -> keeps_meaning L (String_ v) ->
  exists v' o, ParseYAML L (YAMLString L v) = Some (SOk v' o) /\ reads_as v v'.
Proof.
  intros Ho Hf Hp Hk (t' & E & K). destruct (rfc_of_print v Ho Hf Hp Hk) as (v' & T & R).
  pose proof (yaml_plain L v Hp) as Y.
  destruct (C04_rfc_accepted _ _ (K _ T)) as (a & w & _ & _ & P).
  exists v', (length a). split; [|exact R]. unfold ParseYAML. rewrite Y, E, P. reflexivity.
Qed.

Theorem C41_yaml_exact_partial L v :
  json_ok v -> plain_json v -> no_reserved_key v -> text_stable v -> keeps_meaning L (String_ v) ->
  exists o, ParseYAML L (YAMLString L v) = Some (SOk v o).
Proof.
  intros Ho Hp Hk Hs K. destruct (C41_yaml_partial L v Ho) as (v' & o & P & R); try assumption.
  - intros f bit Hsub. destruct (proj1 Hs f bit Hsub) as [-> _]. discriminate.
  - rewrite (reads_as_stable v Hs v' R) in P. exists o. exact P.
Qed.

(** ParseYAML is Parse of the converted text: it fails exactly if the library
    or Parse fails. *)
Theorem C41_parse L str :
  match yaml_to_json L str with
  | Some t => ParseYAML L str = Some (Parse t)
  | None => ParseYAML L str = None
  end.
Proof. unfold ParseYAML. destruct (yaml_to_json L str); reflexivity. Qed.

(** Two values with one JSON text have one YAML text. *)
Theorem C41_same_text L v w :
  plain_json v -> plain_json w -> String_ v = String_ w -> YAMLString L v = YAMLString L w.
Proof.
  intros Hv Hw E. rewrite (yaml_plain L v Hv), (yaml_plain L w Hw), E. reflexivity.
Qed.

(** FALSE for references: the text of one is not converted at all, even with a
    library that keeps all meanings. *)
Theorem C41_reference_refuted : exists L n,
  (forall t, keeps_meaning L t) /\ YAMLString L (JPtr n) <> json_to_yaml L (String_ (JPtr n)).
Proof.
  exists {| json_to_yaml := fun t => "#"%byte :: t;
            yaml_to_json := fun s => match s with "#"%byte :: t => Some t | _ => None end |}, 5.
  split; [|vm_compute; discriminate]. intros t. exists t. split; [reflexivity|]. intros v H. exact H.
Qed.

(** The hypotheses are met: JSON is YAML, so that the identity is a library. *)
Definition flow_style : yaml_lib := {| json_to_yaml := fun t => t; yaml_to_json := Some |}.
Example flow_style_keeps t : keeps_meaning flow_style t.
Proof. exists t. split; [reflexivity|]. intros v H. exact H. Qed.

Definition y_doc : json := JDict 0 [(B "a", JArray [JInt 1; JString (B "x"); JNull]); (B "b", JBool true)].
Example y_doc_back : exists o, ParseYAML flow_style (YAMLString flow_style y_doc) = Some (SOk y_doc o).
Proof. vm_compute. eexists. reflexivity. Qed.
Example y_doc_hyps : json_ok y_doc /\ plain_json y_doc /\ no_reserved_key y_doc /\ text_stable y_doc.
Proof.
  split; [json_ok_tac|].
  assert (NF : forall f bit, ~ subvalue (JFloat f bit) y_doc).
  { unfold y_doc. intros f bit H. subs H. }
  assert (NP : forall n, ~ subvalue (JPtr n) y_doc).
  { unfold y_doc. intros n H. subs H. }
  assert (ND : forall nid kvs, subvalue (JDict nid kvs) y_doc -> nid = 0 /\ ~ In jnid_key (map fst kvs)).
  { unfold y_doc. intros nid kvs H. subs H. split; [reflexivity|]. vm_compute. intuition discriminate. }
  split; [|split].
  - split; [intros f bit H; destruct (NF _ _ H)|]. split; [exact NP|]. intros nid kvs H. apply ND in H. lia.
  - intros nid kvs H. apply ND in H. apply H.
  - split; [intros f bit H; destruct (NF _ _ H)|]. intros nid kvs H. apply ND in H. lia.
Qed.
