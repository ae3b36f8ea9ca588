(** * Top: model of graphqlparser.go:19-60 ([ParseDoc], [ParseSDLDoc]), the entry points. *)
From Verif Require Import Base AST Lexer Parser Walker Context Rules SchemaBuild Utils SchemaValidate.

(** How a call ends: (nil, nil, err) | (nil, errs, nil) | (result, nil, nil) | a panic | not at all. *)
Inductive ending (A : Type) : Type := Refused (m : bytes) | Reported (es : list err) | Returned (a : A) | Panicked | Never.
Arguments Refused {A} m. Arguments Reported {A} es. Arguments Returned {A} a. Arguments Panicked {A}. Arguments Never {A}.

(** graphqlparser.go:19-34 [ParseDoc]. *)
Definition parse_doc (fok : bytes -> bool) (input : bytes) (s : option schema) : ending document :=
  match parse fok input with
  | Error m => Refused m
  | GoPanic => Panicked
  | Diverges => Never
  | Doc d => let c := validate d s in
      if c_crash c then Panicked else match c_errors c with [] => Returned d | es => Reported es end
  end.

(** graphqlparser.go:37-60 [ParseSDLDoc].  [ord], [od], [ot], [oi]: the orders in which Go's range visits the maps
    (SchemaBuild.v, SchemaValidate.v); [peq]: equality of pointers (Utils.v); [fuel] bounds the loops of schema validation.
    [BuildSchema] never returns an error (schema_build.go:19-25). *)
Definition parse_sdl_doc (fok : bytes -> bool) (peq : ty -> ty -> bool) (fuel : nat) (ord : emap (list tydef)) (od : emap dirdef) (ot oi : emap tydef)
    (input : bytes) (s : option schema) : ending schema :=
  match parse fok input with
  | Error m => Refused m
  | GoPanic => Panicked
  | Diverges => Never
  | Doc d => let c := validate_sdl d s in
      if c_crash c then Panicked
      else match c_errors c with
           | _ :: _ => Reported (c_errors c)
           | [] => let c := build_schema ord c in
               if c_crash c then Panicked
               else match validate_schema peq fuel od ot oi (c_schema c) (c_errors c) with
                    | GPanic => Panicked
                    | GLoop => Never
                    | GOk [] => Returned (c_schema c)
                    | GOk es => Reported es
                    end
           end
  end.

(** graphqlparser.go:37-60: what the schema that the caller has given to [ParseSDLDoc] is afterwards.  [NewSDLContext]
    (context.go:36-49) works on it; only [BuildSchema] writes to it ([ValidateSDL] and [ValidateSchema] read it). *)
Definition given_schema_after (fok : bytes -> bool) (ord : emap (list tydef)) (input : bytes) (s : schema) : schema :=
  match parse fok input with
  | Doc d => let c := validate_sdl d (Some s) in
      if c_crash c then c_schema c
      else match c_errors c with
           | _ :: _ => c_schema c
           | [] => c_schema (build_schema ord c)
           end
  | _ => s
  end.
(** graphqlparser.go:19-34: the same for [ParseDoc]. *)
Definition given_schema_after_doc (fok : bytes -> bool) (input : bytes) (s : schema) : schema :=
  match parse fok input with Doc d => c_schema (validate d (Some s)) | _ => s end.
