(** Model of yamlutils.go and jsonpointer.go:95-97.

    The conversions are those of github.com/ghodss/yaml, which is not in
    /repo: they are arguments. *)
From Verif Require Import Base Json Printer Parser.

(** yaml.JSONToYAML (empty on error: yamlutils.go:28 ignores the error) and
    yaml.YAMLToJSON ([None]: an error) *)
Record yaml_lib := { json_to_yaml : bytes -> bytes; yaml_to_json : bytes -> option bytes }.

(** yamlString and the YAMLString methods, yamlutils.go:27-58; a reference
    answers with its String, jsonpointer.go:95-97 *)
Definition YAMLString (L : yaml_lib) (v : json) : bytes :=
  match v with
  | JPtr _ => String_ v
  | _ => json_to_yaml L (String_ v)
  end.

(** ParseYAML, yamlutils.go:19-25: [None] is an error of the library *)
Definition ParseYAML (L : yaml_lib) (str : bytes) : option sres :=
  match yaml_to_json L str with
  | None => None
  | Some t => Some (Parse t)
  end.
