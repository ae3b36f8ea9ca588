(** * Utils: model of validation/utils.go:13-211 (types), ast/ast.go:461-495 (ByName) and of the generators that they loop on.

    [go]: how a call ends; [GLoop] is out of fuel, so a call that ends in [GLoop] for every fuel never returns.
    Go's [==] on ast.Type compares the [ListType] pointers: [peq] says whether the pointers to two element types are the
    same.  The theorems hold for every [peq] with [peq a b = true -> a = b].
    [oi] is the order in which Go's range visits [schema.Types] (the same for all the calls; the results do not depend on it). *)
From Verif Require Import Base AST Walker Context Rules.

Inductive go (A : Type) : Type := GOk (a : A) | GPanic | GLoop.
Arguments GOk {A} _. Arguments GPanic {A}. Arguments GLoop {A}.

(** The fields of [ast.Type] (ast.go:312-317). *)
Definition named_of (t : ty) : bytes := match t with TNamed n _ => n | TList _ _ | TListNil => [] end.
Definition nonnull (t : ty) : bool := match t with TNamed _ nn | TList _ nn => nn | TListNil => false end.
Definition nullable (t : ty) : ty := match t with TNamed n _ => TNamed n false | TList t _ => TList t false | TListNil => TListNil end.
Definition zero_type : ty := TNamed [] false.
Definition go_eq (peq : ty -> ty -> bool) (a b : ty) : bool :=
  match a, b with
  | TNamed n x, TNamed m y => beqb n m && Bool.eqb x y
  | TList t x, TList u y => peq t u && Bool.eqb x y
  | TListNil, TListNil => true
  | _, _ => false
  end.

Definition has_kind (s : schema) (ks : list tkindT) (n : bytes) : bool :=
  match mget n (sc_types s) with Some d => existsb (tkind_eqb (t_kind d)) ks | None => false end.
(** utils.go:43-49, 52-58, 61-67 [IsInterfaceType], [IsObjectType], [IsUnionType]; 22-24 [IsAbstractType]. *)
Definition is_interface (s : schema) (t : ty) : bool := has_kind s [KInterface] (named_of t).
Definition is_object (s : schema) (t : ty) : bool := has_kind s [KObject] (named_of t).
Definition is_union (s : schema) (t : ty) : bool := has_kind s [KUnion] (named_of t).
Definition is_abstract (s : schema) (t : ty) : bool := is_interface s t || is_union s t.
(** utils.go:27-40 [IsInputType], 70-83 [IsOutputType]: they dereference [ListType]. *)
Fixpoint is_input (s : schema) (t : ty) : go bool :=
  match t with TNamed n _ => GOk (has_kind s [KScalar; KEnum; KInputObject] n) | TList t _ => is_input s t | TListNil => GPanic end.
Fixpoint is_output (s : schema) (t : ty) : go bool :=
  match t with TNamed n _ => GOk (has_kind s [KScalar; KObject; KInterface; KUnion; KEnum] n) | TList t _ => is_output s t | TListNil => GPanic end.
(** utils.go:194-210 [IsUnionMemberType]. *)
Definition is_union_member (s : schema) (t : ty) : bool :=
  if nonnull t then false else match t with TNamed n _ => has_kind s [KObject] n | _ => false end.

(** utils.go:159-191 [InterfaceImplementations]. *)
Definition implementations (oi : emap tydef) (s : schema) : emap (list ty) :=
  fold_left (fun m p =>
    match t_kind (snd p) with
    | KObject => fold_left (fun m i => if is_interface s i
                              then mset (named_of i) (TNamed (fst p) false :: match mget (named_of i) m with Some l => l | None => [] end) m
                              else m) (t_impl (snd p)) m
    | KInterface => if mem (fst p) m then m else mset (fst p) [] m
    | _ => m
    end) oi [].
(** utils.go:146-156 [PossibleTypes]. *)
Definition possible_types (oi : emap tydef) (s : schema) (a : ty) : list ty :=
  if is_union s a then match mget (named_of a) (sc_types s) with Some d => t_members d | None => [] end
  else match mget (named_of a) (implementations oi s) with Some l => l | None => [] end.

(** ast/lists.go:1769-1781 [Next] of a generator that has [rest] and [iter] left (C17_generator). *)
Definition gen_next {X} (zero : X) (rest : list X) (iter : Z) : X * Z * list X * Z :=
  match rest with [] => (zero, (-1)%Z, [], iter) | x :: r => (x, iter, r, (iter + 1)%Z) end.
(** utils.go:135-140: the loop of [IsPossibleType]. *)
Fixpoint possible_loop (peq : ty -> ty -> bool) (fuel : nat) (rest : list ty) (iter len : Z) (want : ty) : go bool :=
  match fuel with
  | 0 => GLoop
  | S fuel =>
      let '(t, i, rest, iter) := gen_next zero_type rest iter in
      if (i <? len)%Z then if go_eq peq t want then GOk true else possible_loop peq fuel rest iter len want else GOk false
  end.
(** utils.go:129-143 [IsPossibleType]. *)
Definition is_possible (peq : ty -> ty -> bool) (fuel : nat) (oi : emap tydef) (s : schema) (a t : ty) : go bool :=
  let ts := possible_types oi s a in possible_loop peq fuel ts 0 (Z.of_nat (List.length ts)) t.
(** utils.go:86-126 [IsTypeSubTypeOf]. *)
Fixpoint is_subtype (peq : ty -> ty -> bool) (fuel : nat) (oi : emap tydef) (s : schema) (sub sup : ty) : go bool :=
  match fuel with
  | 0 => GLoop
  | S fuel =>
      if go_eq peq sub sup then GOk true
      else if nonnull sup then
        if nonnull sub then is_subtype peq fuel oi s (nullable sub) (nullable sup) else GOk false
      else if nonnull sub then is_subtype peq fuel oi s (nullable sub) sup
      else match sup, sub with
           | TList b _, TList a _ => is_subtype peq fuel oi s a b
           | TListNil, TListNil | TListNil, TList _ _ | TList _ _, TListNil => GPanic
           | TList _ _, TNamed _ _ | TListNil, TNamed _ _ => GOk false
           | TNamed _ _, TList _ _ | TNamed _ _, TListNil => GOk false
           | TNamed _ _, TNamed _ _ =>
               if is_abstract s sup && is_object s sub then is_possible peq fuel oi s sup sub else GOk false
           end
  end.

(** ast/ast.go:480-495 [FieldDefinitionByName]. *)
Fixpoint field_loop (rest : list fielddef) (n : bytes) : option fielddef :=
  match rest with [] => None | f :: rest => if beqb (fd_name f) n then Some f else field_loop rest n end.
Definition field_by_name (d : tydef) (n : bytes) : option fielddef :=
  match t_kind d with KObject | KInterface => field_loop (t_fields d) n | _ => None end.
(** ast/ast.go:461-477 [EnumValueDefinitionByName]. *)
Definition zero_enumval : enumval := mkEv [] [] [].
Fixpoint enum_loop (fuel : nat) (rest : list enumval) (iter len : Z) (n : bytes) : go (option enumval) :=
  match fuel with
  | 0 => GLoop
  | S fuel =>
      let '(v, i, rest, iter) := gen_next zero_enumval rest iter in
      if (i <? len)%Z then if beqb (ev_name v) n then GOk (Some v) else enum_loop fuel rest iter len n else GOk None
  end.
Definition enum_value_by_name (fuel : nat) (d : tydef) (n : bytes) : go (option enumval) :=
  match t_kind d with KEnum => enum_loop fuel (t_values d) 0 (Z.of_nat (List.length (t_values d))) n | _ => GOk None end.
