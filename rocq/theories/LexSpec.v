(** * LexSpec: the GraphQL lexical grammar (June 2018, section 2.1 and appendix B), on code points.
    This file is a specification: it mentions nothing of the model except the token kinds.
    Documented deviations from the letter of the June 2018 text, all of them also made by the reference
    implementation or by later editions: code points above U+FFFF are source characters, control characters are
    tolerated inside comments, and a number may not be directly followed by something that looks like its own
    continuation (a digit, or for an Int '.', 'e' or 'E'). *)
From Verif Require Import Base Utf8 Lexer.
Local Open Scope Z_scope.

(** The source text denoted by code points; code units that are not scalar values (lone surrogates written as
    \uD800) denote U+FFFD. *)
Definition chars_utf8 (v : list Z) : bytes := flat_map (fun c => utf8 (if scalarb c then c else 65533)) v.

(** A clean source: valid Unicode without NUL. *)
Definition clean (cs : list Z) : Prop := Forall (fun c => scalar c /\ c <> 0) cs.

Definition digit (c : Z) : Prop := 48 <= c <= 57.
Definition letter (c : Z) : Prop := 65 <= c <= 90 \/ 97 <= c <= 122 \/ c = 95.
Definition name_char (c : Z) : Prop := letter c \/ digit c.
Definition line_terminator (c : Z) : Prop := c = 10 \/ c = 13.
(** Ignored single characters: BOM, tab, space, LF, CR, comma. *)
Definition ignored_char (c : Z) : Prop := c = 65279 \/ c = 9 \/ c = 32 \/ c = 10 \/ c = 13 \/ c = 44.
(** One-character punctuators: ! $ & ( ) : = @ [ ] { | } *)
Definition punctuator (c : Z) : Prop := In c [33; 36; 38; 40; 41; 58; 61; 64; 91; 93; 123; 124; 125].

(** Numbers. *)
Inductive natural_part : list Z -> Prop :=
| np_zero : natural_part [48]
| np_nonzero d ds : 49 <= d <= 57 -> Forall digit ds -> natural_part (d :: ds).
Definition integer_part (w : list Z) : Prop := natural_part w \/ exists u, w = 45 :: u /\ natural_part u.
Definition fractional_part (f : list Z) : Prop := exists ds, f = 46 :: ds /\ ds <> [] /\ Forall digit ds.
Definition exponent_part (e : list Z) : Prop :=
  exists x sg ds, e = x :: sg ++ ds /\ (x = 101 \/ x = 69) /\ (sg = [] \/ sg = [43] \/ sg = [45])
                  /\ ds <> [] /\ Forall digit ds.

(** Quoted strings: source characters between the quotes, and the characters they denote. *)
Definition escape (e x : Z) : Prop :=
  In (e, x) [(34, 34); (92, 92); (47, 47); (98, 8); (102, 12); (110, 10); (114, 13); (116, 9)].
Inductive hexdigit : Z -> Z -> Prop :=
| hex_digit c : 48 <= c <= 57 -> hexdigit c (c - 48)
| hex_upper c : 65 <= c <= 70 -> hexdigit c (c - 55)
| hex_lower c : 97 <= c <= 102 -> hexdigit c (c - 87).

Inductive string_chars : list Z -> list Z -> Prop :=
| sc_nil : string_chars [] []
| sc_char c b v : (c = 9 \/ 32 <= c) -> c <> 34 -> c <> 92 -> string_chars b v -> string_chars (c :: b) (c :: v)
| sc_escape e x b v : escape e x -> string_chars b v -> string_chars (92 :: e :: b) (x :: v)
| sc_unicode h1 h2 h3 h4 x1 x2 x3 x4 b v :
    hexdigit h1 x1 -> hexdigit h2 x2 -> hexdigit h3 x3 -> hexdigit h4 x4 -> string_chars b v ->
    string_chars (92 :: 117 :: h1 :: h2 :: h3 :: h4 :: b) (x1 * 4096 + x2 * 256 + x3 * 16 + x4 :: v).

(** Block strings: source characters between the triple quotes, and the raw value. *)
Definition prefix (p cs : list Z) : Prop := exists t, cs = p ++ t.
Definition triple : list Z := [34; 34; 34].

Inductive block_chars : list Z -> list Z -> Prop :=
| bc_nil : block_chars [] []
| bc_escape b v : block_chars b v -> block_chars (92 :: 34 :: 34 :: 34 :: b) (34 :: 34 :: 34 :: v)
| bc_char c b v :
    (c = 9 \/ c = 10 \/ c = 13 \/ 32 <= c) ->
    ~ prefix triple (c :: b ++ triple) -> ~ prefix (92 :: triple) (c :: b ++ triple) ->
    block_chars b v -> block_chars (c :: b) (c :: v).

(** BlockStringValue(rawValue), June 2018 section 2.9.4, step by step. *)
Definition white (c : Z) : bool := (c =? 32) || (c =? 9).

(** 1. lines: split at LF, CR LF and CR. *)
Fixpoint lines_of (v : list Z) (cur : list Z) : list (list Z) :=
  match v with
  | [] => [rev cur]
  | c :: t =>
      if c =? 10 then rev cur :: lines_of t []
      else if c =? 13 then
        match t with
        | d :: t' => if d =? 10 then rev cur :: lines_of t' [] else rev cur :: lines_of t []
        | [] => rev cur :: lines_of t []
        end
      else lines_of t (c :: cur)
  end.

Fixpoint indent_of (l : list Z) : nat :=
  match l with c :: t => if white c then S (indent_of t) else 0%nat | [] => 0%nat end.

(** 3. the common indent of the lines after the first that are not all white space. *)
Fixpoint common_indent (ls : list (list Z)) : option nat :=
  match ls with
  | [] => None
  | l :: r =>
      if (indent_of l <? List.length l)%nat
      then match common_indent r with None => Some (indent_of l) | Some n => Some (Nat.min (indent_of l) n) end
      else common_indent r
  end.

(** 5.-6. *)
Definition blank (l : list Z) : bool := forallb white l.
Fixpoint drop_blank_lines (ls : list (list Z)) : list (list Z) :=
  match ls with l :: r => if blank l then drop_blank_lines r else ls | [] => [] end.

Fixpoint join_lf (ls : list (list Z)) : list Z :=
  match ls with [] => [] | [l] => l | l :: r => l ++ 10 :: join_lf r end.

Definition block_string_value (raw : list Z) : list Z :=
  let lines := lines_of raw [] in
  let unindented :=
    match lines with
    | first :: rest =>
        match common_indent rest with
        | Some n => first :: map (skipn n) rest
        | None => lines
        end
    | [] => []
    end in
  join_lf (rev (drop_blank_lines (rev (drop_blank_lines unindented)))).

(** Lexemes: [lexeme k w lit stop] — the source characters [w] are a token of kind [k] with literal [lit], provided
    the next source character (if any) is not in [stop] (longest match). *)
Definition nothing (c : Z) : Prop := False.
Definition exp_mark (c : Z) : Prop := c = 101 \/ c = 69.

Inductive lexeme : kind -> list Z -> bytes -> (Z -> Prop) -> Prop :=
| lx_punct c : punctuator c -> lexeme KPunct [c] (utf8s [c]) nothing
| lx_spread : lexeme KPunct [46; 46; 46] (B "...") nothing
| lx_name c w : letter c -> Forall name_char w -> lexeme KName (c :: w) (utf8s (c :: w)) name_char
| lx_int w : integer_part w -> lexeme KInt w (utf8s w) (fun c => digit c \/ c = 46 \/ exp_mark c)
| lx_float_frac w f : integer_part w -> fractional_part f ->
    lexeme KFloat (w ++ f) (utf8s (w ++ f)) (fun c => digit c \/ exp_mark c)
| lx_float_exp w e : integer_part w -> exponent_part e -> lexeme KFloat (w ++ e) (utf8s (w ++ e)) digit
| lx_float_both w f e : integer_part w -> fractional_part f -> exponent_part e ->
    lexeme KFloat (w ++ f ++ e) (utf8s (w ++ f ++ e)) digit
| lx_string b v : string_chars b v ->
    lexeme KString (34 :: b ++ [34]) (chars_utf8 v) (fun c => b = [] /\ c = 34)
| lx_block b raw : block_chars b raw ->
    lexeme KString (triple ++ b ++ triple) (chars_utf8 (block_string_value raw)) nothing.

Definition ends (stop : Z -> Prop) (rest : list Z) : Prop :=
  match rest with c :: _ => ~ stop c | [] => True end.

(** A comment runs to the end of its line. *)
Definition line_end (rest : list Z) : Prop :=
  match rest with c :: _ => line_terminator c | [] => True end.

(** A token together with its place: the source text before it, and its own source text. *)
Record stok := mkStok { skind : kind; slit : bytes; sbefore : list Z; ssrc : list Z }.

(** [lexing pre cs toks rest]: having consumed [pre], the text [cs] starts with the tokens [toks] (separated by
    ignored text), after which [rest] remains. *)
Inductive lexing : list Z -> list Z -> list stok -> list Z -> Prop :=
| lg_stop pre cs : lexing pre cs [] cs
| lg_ignored pre c t ts rest :
    ignored_char c -> lexing (pre ++ [c]) t ts rest -> lexing pre (c :: t) ts rest
| lg_comment pre b t ts rest :
    Forall (fun c => ~ line_terminator c) b -> line_end t ->
    lexing (pre ++ 35 :: b) t ts rest -> lexing pre (35 :: b ++ t) ts rest
| lg_token pre k w lit stop t ts rest :
    lexeme k w lit stop -> ends stop t -> lexing (pre ++ w) t ts rest ->
    lexing pre (w ++ t) (mkStok k lit pre w :: ts) rest.

(** No token and no ignored text starts here. *)
Definition stuck (rest : list Z) : Prop :=
  rest <> [] /\
  (forall c t, rest = c :: t -> ~ ignored_char c /\ c <> 35) /\
  (forall k w lit stop t, rest = w ++ t -> lexeme k w lit stop -> ~ ends stop t).

(** The tokens of a whole source text. *)
Definition tokens_of (cs : list Z) (ts : list stok) : Prop := lexing [] cs ts [].

(** Positions (1-based); a line terminator is LF, CR or CR LF. *)
Fixpoint line_count (pre : list Z) : nat :=
  match pre with
  | [] => 0%nat
  | c :: t =>
      if c =? 10 then S (line_count t)
      else if c =? 13 then match t with
                           | d :: _ => if d =? 10 then line_count t else S (line_count t)
                           | [] => 1%nat
                           end
      else line_count t
  end.
Definition line_of (pre : list Z) : nat := S (line_count pre).

(** characters after the last line terminator, plus one *)
Fixpoint last_line (pre : list Z) (cur : list Z) : list Z :=
  match pre with
  | [] => cur
  | c :: t => if (c =? 10) || (c =? 13) then last_line t [] else last_line t (cur ++ [c])
  end.
Definition column_of (pre : list Z) : nat := S (List.length (last_line pre [])).

(** Block string sources on which the implementation is compared with the specification: it treats CR, control
    characters after a backslash, and an escaped backslash before the closing quotes differently (see the [_refuted]
    theorems).  Sources without any triple quote have no block strings. *)
Definition contains (p cs : list Z) : Prop := exists a b, cs = a ++ p ++ b.
Definition regular_blocks (cs : list Z) : Prop :=
  ~ contains triple cs \/
  (Forall (fun c => c = 9 \/ c = 10 \/ 32 <= c) cs /\ ~ contains (92 :: 92 :: triple) cs).
