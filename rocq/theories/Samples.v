(** * Samples: documents for the examples, obtained by running the model of the parser on a source text. *)
From Verif Require Import Base AST Lexer Parser.
Definition no_document : document := mkDoc [] 0 0 0 0 0 0 0.
Definition src (s : string) : document := match parse (fun _ => true) (B s) with Doc d => d | _ => no_document end.
