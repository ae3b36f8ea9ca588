(** * SchemaValidate: model of validation/schema_validate.go.

    [V]: the effect of a call on the context's errors (newest first).  [od], [ot], [oi]: the orders in which Go's range
    visits [schema.Directives], [schema.Types] in validateTypes and [schema.Types] in InterfaceImplementations. *)
From Verif Require Import Base Utf8 AST Walker Context Rules Utils.

Definition V := list err -> go (list err).
Definition vret : V := GOk.
Definition vseq (a b : V) : V := fun es => match a es with GOk es => b es | GPanic => GPanic | GLoop => GLoop end.
Definition vadd (e : err) : V := fun es => GOk (e :: es).
Definition vtest (g : go bool) (k : bool -> V) : V := fun es => match g with GOk b => k b es | GPanic => GPanic | GLoop => GLoop end.
(** [ForEach]. *)
Fixpoint vfor {X} (f : X -> V) (l : list X) : V := match l with [] => vret | x :: l => vseq (f x) (vfor f l) end.
Definition vif (b : bool) (e : err) : V := if b then vadd e else vret.

(** schema_validate.go:235-243: the classes of runes. *)
Definition letter_rune (r : Z) : bool := ((97 <=? r) && (r <=? 122) || (65 <=? r) && (r <=? 90) || (r =? 95))%Z.
Definition digit_rune (r : Z) : bool := ((48 <=? r) && (r <=? 57))%Z.
(** schema_validate.go:235-243: [for i, r := range name]; false when the default case is reached. *)
Fixpoint name_runes (fuel i : nat) (p : bytes) : bool :=
  match p, fuel with
  | [], _ => true
  | _, 0 => false
  | _, S fuel => let '(r, w) := decode_rune p in
      if letter_rune r || (0 <? i) && digit_rune r then name_runes fuel (i + w) (skipn w p) else false
  end.
(** schema_validate.go:222-244 [validateName]. *)
Definition validate_name (n : bytes) : V :=
  match n with
  | [] => vadd (EInvalidName n)
  | c :: r => if Ascii.eqb c "_"%char && match r with d :: _ => Ascii.eqb d "_"%char | [] => false end then vadd (EReserved n)
              else if name_runes (List.length n) 0 n then vret else vadd (EInvalidName n)
  end.
(** schema_validate.go:247-268 [isIntrospectionTypeName]. *)
Definition introspection_names : list bytes :=
  map B ["__Schema"; "__Directive"; "__DirectiveLocation"; "__Type"; "__Field"; "__InputValue"; "__EnumValue"; "__TypeKind"]%string.
Definition is_introspection (n : bytes) : bool := existsb (beqb n) introspection_names.
Definition is_kind (k : tkindT) (d : tydef) : bool := tkind_eqb k (t_kind d).

(** schema_validate.go:22-67 [validateRootTypes]. *)
Definition root_def (s : schema) (t : option ty) : option tydef := match t with Some t => mget (named_of t) (sc_types s) | None => None end.
Definition validate_roots (s : schema) : V :=
  vseq (match root_def s (sc_query s) with
        | None => vadd (EMsg (B "Query root type must be provided."))
        | Some d => vif (negb (is_kind KObject d)) (EMsg (B "Query root type must be Object type."))
        end)
 (vseq (match root_def s (sc_mutation s) with
        | None => vret
        | Some d => vif (negb (is_kind KObject d)) (EMsg (B "Mutation root type must be Object type if provided."))
        end)
       (match root_def s (sc_subscription s) with
        | None => vret
        | Some d => vif (negb (is_kind KObject d)) (EMsg (B "Subscription root type must be Object type if provided."))
        end)).
(** schema_validate.go:70-89 [validateDirectives]. *)
Fixpoint directive_args (d : bytes) (seen : list bytes) (l : list ivdef) : V :=
  match l with
  | [] => vret
  | a :: l =>
      if existsb (beqb (i_name a)) seen
      then vseq (vadd (EMsg (B "Argument @" ++ d ++ B "(" ++ i_name a ++ B ":) can only be defined once."))) (directive_args d seen l)
      else vseq (validate_name (i_name a)) (directive_args d (i_name a :: seen) l)
  end.
Definition validate_directives (od : emap dirdef) : V :=
  vfor (fun p => vseq (validate_name (fst p)) (directive_args (fst p) [] (dd_args (snd p)))) od.
(** schema_validate.go:118-159 [validateFields]. *)
Fixpoint field_args (s : schema) (tf : bytes) (seen : list bytes) (l : list ivdef) : V :=
  match l with
  | [] => vret
  | a :: l =>
      vseq (validate_name (i_name a))
     (vseq (vif (existsb (beqb (i_name a)) seen) (EMsg (B "Field argument " ++ tf ++ B "(" ++ i_name a ++ B ":) can only be defined once.")))
     (vseq (vtest (is_input s (i_type a)) (fun b => vif (negb b) (EMsg (B "The type of " ++ tf ++ B "(" ++ i_name a ++ B ":) must be Input Type."))))
           (field_args s tf (i_name a :: seen) l)))
  end.
Definition validate_field (s : schema) (d : tydef) (f : fielddef) : V :=
  let tf := t_name d ++ B "." ++ fd_name f in
  vseq (validate_name (fd_name f))
 (vseq (vtest (is_output s (fd_type f)) (fun b => vif (negb b) (EMsg (B "The type of " ++ tf ++ B " must be Output Type."))))
       (field_args s tf [] (fd_args f))).
Definition validate_fields (s : schema) (d : tydef) : V :=
  vseq (vif (match t_fields d with [] => true | _ => false end) (EMsg (B "Type " ++ t_name d ++ B " must define one or more fields.")))
       (vfor (validate_field s d) (t_fields d)).
(** schema_validate.go:193-219 [validateObjectImplementsInterface]. *)
Definition validate_implements (peq : ty -> ty -> bool) (fuel : nat) (oi : emap tydef) (s : schema) (d i : tydef) : V :=
  vfor (fun f =>
    let name := t_name i ++ B "." ++ fd_name f in
    match field_by_name d (fd_name f) with
    | None => vadd (EMsg (B "Interface field " ++ name ++ B " expected but " ++ t_name d ++ B " does not provide it."))
    | Some g => vtest (is_subtype peq fuel oi s (fd_type g) (fd_type f)) (fun b =>
        vif (negb b) (EMsg (B "Interface field " ++ name ++ B " expects type " ++ ty_string (fd_type f) ++ B " but " ++
                            t_name d ++ B "." ++ fd_name g ++ B " is type " ++ ty_string (fd_type g))))
    end) (t_fields i).
(** schema_validate.go:162-190 [validateObjectInterfaces]. *)
Fixpoint object_interfaces (peq : ty -> ty -> bool) (fuel : nat) (oi : emap tydef) (s : schema) (d : tydef) (seen : list bytes) (l : list ty) : V :=
  match l with
  | [] => vret
  | t :: l =>
      if negb (is_interface s t)
      then vseq (vadd (EMsg (B "Type " ++ t_name d ++ B " must only implement Interface types, it cannot implement " ++ named_of t)))
                (object_interfaces peq fuel oi s d seen l)
      else if existsb (beqb (named_of t)) seen
      then vseq (vadd (EMsg (B "Type " ++ t_name d ++ B " can only implement " ++ named_of t ++ B " once.")))
                (object_interfaces peq fuel oi s d seen l)
      else vseq (match mget (named_of t) (sc_types s) with Some i => validate_implements peq fuel oi s d i | None => fun _ => GPanic end)
                (object_interfaces peq fuel oi s d (named_of t :: seen) l)
  end.
(** schema_validate.go:92-115 [validateTypes]. *)
Definition validate_type (peq : ty -> ty -> bool) (fuel : nat) (oi : emap tydef) (s : schema) (p : bytes * tydef) : V :=
  vseq (if is_introspection (fst p) then vret else validate_name (fst p))
       (match t_kind (snd p) with
        | KObject => vseq (validate_fields s (snd p)) (object_interfaces peq fuel oi s (snd p) [] (t_impl (snd p)))
        | KInterface => validate_fields s (snd p)
        | _ => vret
        end).
(** schema_validate.go:9-19 [ValidateSchema]. *)
Definition validate_schema (peq : ty -> ty -> bool) (fuel : nat) (od : emap dirdef) (ot oi : emap tydef) (s : schema) : V :=
  vseq (validate_roots s) (vseq (validate_directives od) (vfor (validate_type peq fuel oi s) ot)).
