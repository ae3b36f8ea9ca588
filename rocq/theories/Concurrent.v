(** * Concurrent: calls of ParseDoc and ParseSDLDoc that run at the same time (graphqlparser.go:10-60, validation/context.go:8-57,
    validation/validate.go:12-27).

    The memory that calls can share is the schemas that their callers have given them.  (The two default walkers,
    graphqlparser.go:10-16, and the walker of the query contexts, context.go:8-16, are package variables too, but are only
    read after initialisation; the model's walkers are constants.  Everything else that a call writes, it has allocated.)
    A call is a program whose steps read and write its schema: one step for each call of a handler by the walker, for each
    definition that PrepareContextSDL visits, for each of the functions of BuildSchema, for validateRootTypes, for
    validateDirectives and for each type that validateTypes visits.  A schedule interleaves the steps of the calls.
    Simplification: what happens within one step is atomic; Go promises nothing about calls that race within one. *)
From Verif Require Import Base AST Lexer Parser Walker WalkSpec Context Rules SchemaBuild Utils SchemaValidate Top.

(** ** Programs *)
Inductive result := RDoc (e : ending document) | RSdl (e : ending schema).
Inductive prog := Stop (r : result) | Step (f : schema -> schema * prog).
(** handlers work on the schema that is in memory now, and store what they make of it *)
Fixpoint run_all (fs : list (ctx -> ctx)) (c : ctx) (k : ctx -> prog) : prog :=
  match fs with
  | [] => k c
  | f :: fs => Step (fun s => let c := f (set_schema s c) in (c_schema c, run_all fs c k))
  end.
Fixpoint check_all (fs : list (schema -> V)) (es : list err) (k : go (list err) -> prog) : prog :=
  match fs with
  | [] => k (GOk es)
  | f :: fs => Step (fun s => (s, match f s es with GOk es => check_all fs es k | GPanic => k GPanic | GLoop => k GLoop end))
  end.
(** walker.go:91-126: the calls of handlers in a walk (C18) *)
Definition actions (w : walker ctx) (d : document) : list (ctx -> ctx) :=
  flat_map (fun e => map (fun h c => h c (snd e)) (w (fst e) (ntype_of (snd e)))) (events (tDocument d)).
Definition blank_ctx (d : document) (s : option sdl) : ctx := mkCtx d [] empty_schema s [] [] [] [] None false.

Section calls.
Variable fok : bytes -> bool.
(** graphqlparser.go:19-34 [ParseDoc], with context.go:18-34 and validate.go:12-18. *)
Definition doc_prog (input : bytes) : prog :=
  match parse fok input with
  | Error m => Stop (RDoc (Refused m))
  | GoPanic => Stop (RDoc Panicked)
  | Diverges => Stop (RDoc Never)
  | Doc d =>
      run_all (actions query_context_walker d ++ actions (new_walker Specified) d) (blank_ctx d None)
        (fun c => Stop (RDoc (if c_crash c then Panicked else match c_errors c with [] => Returned d | es => Reported es end)))
  end.
(** What a call of [ParseSDLDoc] depends on besides its input: the orders in which it visits maps, and the fuel (Top.v). *)
Record choices := mkCh { ch_peq : ty -> ty -> bool; ch_fuel : nat; ch_ord : emap (list tydef); ch_dirs : emap dirdef; ch_types : emap tydef; ch_impls : emap tydef }.
(** schema_validate.go:9-19 *)
Definition checks (h : choices) : list (schema -> V) :=
  [validate_roots; (fun _ => validate_directives (ch_dirs h))] ++ map (fun p s => validate_type (ch_peq h) (ch_fuel h) (ch_impls h) s p) (ch_types h).
(** graphqlparser.go:37-60 [ParseSDLDoc], with context.go:37-57, validate.go:21-27, schema_build.go:19-32; [given] says that the
    caller's schema is not nil. *)
Definition sdl_prog (h : choices) (given : bool) (input : bytes) : prog :=
  match parse fok input with
  | Error m => Stop (RSdl (Refused m))
  | GoPanic => Stop (RSdl Panicked)
  | Diverges => Stop (RSdl Never)
  | Doc d =>
      run_all (map (fun x c => prepare1 c x) (doc_defs d) ++ [fun c => set_doc (name_document (c_doc c)) c] ++ actions (new_walker SpecifiedSDL) (name_document d))
        (blank_ctx d (Some (empty_sdl given)))
        (fun c =>
          if c_crash c then Stop (RSdl Panicked)
          else match c_errors c with
               | _ :: _ => Stop (RSdl (Reported (c_errors c)))
               | [] =>
                   run_all [merge_schema; merge_types (ch_ord h); build_definition; build_directives; build_types] c
                     (fun c =>
                       if c_crash c then Stop (RSdl Panicked)
                       else check_all (checks h) (c_errors c) (fun r =>
                              match r with
                              | GPanic => Stop (RSdl Panicked)
                              | GLoop => Stop (RSdl Never)
                              | GOk [] => Step (fun s => (s, Stop (RSdl (Returned s))))
                              | GOk es => Stop (RSdl (Reported es))
                              end))
               end)
  end.

(** ** Calls and schedules *)
Inductive call := CallDoc (input : bytes) (a : option nat) | CallSdl (input : bytes) (a : option nat) (h : choices).
Definition address (k : call) : option nat := match k with CallDoc _ a | CallSdl _ a _ => a end.
Definition program (k : call) : prog :=
  match k with
  | CallDoc i _ => doc_prog i
  | CallSdl i a h => sdl_prog h (match a with Some _ => true | None => false end) i
  end.
(** [Given a]: a schema of the callers; [Fresh i]: the one that call [i] allocates when it is given nil (context.go:23,40). *)
Inductive loc := Given (a : nat) | Fresh (i : nat).
Definition loc_dec (a b : loc) : {a = b} + {a <> b}. Proof. decide equality; apply Nat.eq_dec. Defined.
Definition memory := loc -> schema.
Definition place (i : nat) (k : call) : loc := match address k with Some a => Given a | None => Fresh i end.
Definition store (m : memory) (l : loc) (s : schema) : memory := fun x => if loc_dec x l then s else m x.
Fixpoint put {X} (l : list X) (i : nat) (x : X) : list X :=
  match l, i with [], _ => [] | _ :: l, 0 => x :: l | y :: l, S i => y :: put l i x end.
(** one step of call [i], if it has not ended *)
Definition turn (ks : list call) (c : memory * list prog) (i : nat) : memory * list prog :=
  match nth_error ks i, nth_error (snd c) i with
  | Some k, Some (Step f) => let '(s, p) := f (fst c (place i k)) in (store (fst c) (place i k) s, put (snd c) i p)
  | _, _ => c
  end.
Definition execute (ks : list call) (m : memory) (sched : list nat) : memory * list prog := fold_left (turn ks) sched (m, map program ks).
(** call [i] has ended with [r] *)
Definition ended (c : memory * list prog) (i : nat) (r : result) : Prop := nth_error (snd c) i = Some (Stop r).
End calls.
