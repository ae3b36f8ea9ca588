(** * Errors: model of graphql/errors.go. *)
From Coq Require Import Permutation.
From Verif Require Import Base Context.

(** ast/ast.go:4-7 [Location] (Go ints), 18-23 [PathNode] (the two kinds). *)
Inductive pnode := PStr (s : bytes) | PInt (z : Z).
(** errors.go:12-16 [Error]. *)
Record gerror := mkErr { g_message : bytes; g_locs : list (Z * Z); g_path : list pnode }.
(** errors.go:19-23 [NewError]. *)
Definition new_error (m : bytes) : gerror := mkErr m [] [].
(** The error that a constructor of validation/errors.go gives (Context.v, [message]): locations and paths are not set. *)
Definition gerror_of (e : err) : gerror := new_error (message e).

(** errors.go:40,42: [strconv.FormatUint(uint64(x), 10)]. *)
Definition format_uint (x : Z) : bytes := itoaN (Z.to_N (x mod 2 ^ 64)).
Definition quote : bytes := [bz 34].
(** errors.go:35-45 *)
Definition location_json (l : Z * Z) : bytes :=
  B "{" ++ (quote ++ B "line" ++ quote ++ B ":") ++ format_uint (fst l) ++ (B "," ++ quote ++ B "column" ++ quote ++ B ":") ++ format_uint (snd l) ++ B "}".
(** errors.go:55-63; [strconv.Itoa]. *)
Definition pnode_json (p : pnode) : bytes := match p with PStr s => quote ++ s ++ quote | PInt z => itoa z end.
(** errors.go:27-71 [MarshalJSON]: the [i > 0] tests put a comma between the elements. *)
Definition marshal (e : gerror) : bytes :=
  B "{" ++ (quote ++ B "message" ++ quote ++ B ":" ++ quote) ++ g_message e ++ quote ++
  match g_locs e with [] => [] | ls => B "," ++ quote ++ B "locations" ++ quote ++ B ":[" ++ joinb (B ",") (map location_json ls) ++ B "]" end ++
  match g_path e with [] => [] | ps => B "," ++ quote ++ B "path" ++ quote ++ B ":[" ++ joinb (B ",") (map pnode_json ps) ++ B "]" end ++ B "}".
Example marshal_ex : marshal (mkErr (B "No.") [(6, 7); (1, 2)]%Z [PStr (B "hero"); PInt 1; PStr (B "name")]) =
  B "{""message"":""No."",""locations"":[{""line"":6,""column"":7},{""line"":1,""column"":2}],""path"":[""hero"",1,""name""]}".
Proof. vm_compute. reflexivity. Qed.

(** Go's [<] on strings. *)
Fixpoint bytes_lt (a b : bytes) : bool :=
  match a, b with
  | _, [] => false
  | [], _ :: _ => true
  | x :: a, y :: b => (zb x <? zb y)%Z || (zb x =? zb y)%Z && bytes_lt a b
  end.
(** The contract of [sort.Slice]: a permutation in which no element is less than one before it. *)
Definition slice_sorted {X} (less : X -> X -> bool) (l out : list X) : Prop :=
  Permutation l out /\ forall a x b y c, out = a ++ x :: b ++ y :: c -> less y x = false.
(** errors.go:76-97 [SortErrors]; [errs] and [out] in the order of ForEach ([Add] puts a new element first). *)
Definition sort_errors (errs out : list gerror) : Prop :=
  exists sl, slice_sorted (fun a b => bytes_lt (marshal a) (marshal b)) errs sl /\ out = fold_left (fun l e => e :: l) sl [].
