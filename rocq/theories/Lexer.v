(** * Lexer: model of language/lexer.go and language/token.go. *)
From Verif Require Import Base Utf8.

(** ** language/token.go:4-21,41-46 — token kinds and tokens.
    The "ignored" kinds (UnicodeBOM ... Comma) are declared in Go but never produced; they are omitted. *)
Inductive kind := KIllegal | KEOF | KPunct | KName | KInt | KFloat | KString.

Record token := mkTok { tkind : kind; tlit : bytes; tline : nat; tcol : Z }.

Definition kind_eqb (a b : kind) : bool :=
  match a, b with
  | KIllegal, KIllegal | KEOF, KEOF | KPunct, KPunct | KName, KName
  | KInt, KInt | KFloat, KFloat | KString, KString => true
  | _, _ => false
  end.

(** token.go:24-37,52-54 [TokenKind.String]. *)
Definition kind_name (k : kind) : bytes :=
  match k with
  | KIllegal => B "Illegal" | KEOF => B "EOF" | KPunct => B "Punctuator" | KName => B "Name"
  | KInt => B "IntValue" | KFloat => B "FloatValue" | KString => B "StringValue"
  end.

(** ** lexer.go:53-61 — positional state; [input]/[inputLen] are parameters. *)
Record lst := mkL { pos : nat; lpos : nat; line : nat }.

(** lexer.go:64-70 [NewLexer]. *)
Definition lex_init : lst := mkL 0 0 1.

(** Result of running lexer code: a value and state, a Go run-time panic, or fuel exhaustion. *)
Inductive outcome (A : Type) : Type :=
| Ok (a : A) (s : lst)
| Panic
| Fuel.
Arguments Ok {A} _ _. Arguments Panic {A}. Arguments Fuel {A}.

Definition M (A : Type) : Type := bytes -> lst -> outcome A.
Definition ret {A} (a : A) : M A := fun _ s => Ok a s.
Definition bind {A C} (m : M A) (k : A -> M C) : M C :=
  fun i s => match m i s with Ok a s' => k a i s' | Panic => Panic | Fuel => Fuel end.
Definition get : M lst := fun _ s => Ok s s.
Definition put (s' : lst) : M unit := fun _ _ => Ok tt s'.
Definition panic {A} : M A := fun _ _ => Panic.
Definition nofuel {A} : M A := fun _ _ => Fuel.
(** the input buffer ([l.input]) *)
Definition input : M bytes := fun i s => Ok i s.

Declare Scope lex_scope.
Delimit Scope lex_scope with lex.
Notation "x <- m ;; k" := (bind m (fun x => k)) (at level 61, m at next level, right associativity) : lex_scope.
Notation "' p <- m ;; k" := (bind m (fun x => match x with p => k end))
  (at level 61, p pattern, m at next level, right associativity) : lex_scope.
Notation "m ;;; k" := (bind m (fun _ => k)) (at level 61, right associativity) : lex_scope.
Local Open Scope lex_scope.

(** lexer.go:11-27 — rune constants. *)
Definition eof : Z := 0.
Definition er : Z := (-1).
Definition c_bom : Z := 65279.
Definition c_ws : Z := 32.
Definition c_com : Z := 44.
Definition c_dq : Z := 34.
Definition c_fsl : Z := 47.
Definition c_bck : Z := 8.
Definition c_ff : Z := 12.
Definition c_lf : Z := 10.
Definition c_cr : Z := 13.
Definition c_tab : Z := 9.
Definition c_bsl : Z := 92.

Definition zeq := Z.eqb.
Notation "a =? b" := (Z.eqb a%Z b%Z) : lex_scope.
Notation "a <=? b" := (Z.leb a%Z b%Z) : lex_scope.
Notation "a <? b" := (Z.ltb a%Z b%Z) : lex_scope.

(** lexer.go:907-917 [read]. *)
Definition read : M (Z * nat) := fun i s =>
  match nth_error i (pos s) with
  | None => Ok (eof, 0) s                                   (* pos >= inputLen *)
  | Some b => Ok (zb b, 1) (mkL (pos s + 1) (lpos s + 1) (line s))
  end.

(** lexer.go:924-933 [readUnicode]. *)
Definition readUnicode : M (Z * nat) := fun i s =>
  if Nat.leb (List.length i) (pos s) then Ok (eof, 0) s
  else match pos s with
       | 0 => Panic                                          (* input[-1:] *)
       | S p =>
           let '(r, w) := decode_rune (skipn p i) in
           Ok (r, w) (mkL (pos s + w - 1) (lpos s) (line s))
       end.

(** The idiom used throughout lexer.go:
    [r, w := l.read(); if r >= utf8.RuneSelf { r, w = l.readUnicode() }]. *)
Definition readr : M (Z * nat) :=
  '(r, w) <- read ;;
  if 128 <=? r then readUnicode else ret (r, w).

(** lexer.go:938-944 [unread].  A negative position makes the next access panic; it is a [Panic] here. *)
Definition unread (width : nat) : M unit := fun _ s =>
  if Nat.ltb (pos s) width then Panic
  else Ok tt (mkL (pos s - width) (lpos s - 1) (line s)).

(** Go slice expression [l.input[a:b]]; [b] may be given as a subtraction that underflows, hence Z. *)
Definition slice (a b : Z) : M bytes := fun i s =>
  if (0 <=? a) && (a <=? b) && (b <=? Z.of_nat (List.length i))
  then Ok (firstn (Z.to_nat (b - a)%Z) (skipn (Z.to_nat a) i)) s
  else Panic.

Definition set_line (n : nat) : M unit := fun _ s => Ok tt (mkL (pos s) (lpos s) n).
Definition set_lpos (n : nat) : M unit := fun _ s => Ok tt (mkL (pos s) n (line s)).
Definition newline : M unit := fun _ s => Ok tt (mkL (pos s) 0 (S (line s))).  (* l.line++; l.lpos = 0 *)

(** Go's [%q] (standard library, strconv/quote.go [appendEscapedRune], as of the Go 1.13 of go.mod) on one rune,
    between quotation marks [q].  SIMPLIFIED: a rune above U+007F is taken to be printable; Go writes those that are
    not (U+0085, say) as \u0085.  Only the text of the error message depends on it.  [string(r)] is the standard
    encoder, which agrees with [encode_rune]. *)
Definition lower_hex (n : Z) : byte := bz (if n <? 10 then 48 + n else 87 + n)%Z.
Definition escaped_rune (q r : Z) : bytes :=
  if (r =? q) || (r =? 92) then B "\" ++ encode_rune r
  else if (32 <=? r) && negb (r =? 127) then encode_rune r
  else if r =? 7 then B "\a"
  else if r =? 8 then B "\b"
  else if r =? 12 then B "\f"
  else if r =? 10 then B "\n"
  else if r =? 13 then B "\r"
  else if r =? 9 then B "\t"
  else if r =? 11 then B "\v"
  else if r <? 32 then B "\x" ++ [lower_hex (r / 16); lower_hex (r mod 16)]
  else B "\u00" ++ [lower_hex (r / 16); lower_hex (r mod 16)].
Definition quote_rune (r : Z) : bytes := B "'" ++ escaped_rune 39 r ++ B "'".
Definition quote_string (rs : list Z) : bytes := B """" ++ flat_map (escaped_rune 34) rs ++ B """".

Definition illegal (msg : bytes) (ln : nat) (col : Z) : token := mkTok KIllegal msg ln col.

Definition is_digit (r : Z) : bool := (48 <=? r) && (r <=? 57).
Definition is_upper (r : Z) : bool := (65 <=? r) && (r <=? 90).
Definition is_lower (r : Z) : bool := (97 <=? r) && (r <=? 122).
Definition is_name_start (r : Z) : bool := is_lower r || is_upper r || (r =? 95).
Definition is_name_cont (r : Z) : bool := is_digit r || is_upper r || is_lower r || (r =? 95).
(** lexer.go:83 *)
Definition is_punct (r : Z) : bool :=
  (r =? 123) || (r =? 125) || (r =? 91) || (r =? 93) || (r =? 33) || (r =? 36) || (r =? 40) || (r =? 41)
  || (r =? 58) || (r =? 64) || (r =? 38) || (r =? 46) || (r =? 61) || (r =? 124).

(** lexer.go:867-902 [readNextSignificant].  The Go loop condition [r != eof] is never reached with
    [r = eof], because eof falls into the [default: break Loop] case. *)
Fixpoint readNextSignificant_loop (fuel : nat) (wasCR : bool) : M (Z * nat) :=
  match fuel with
  | O => nofuel
  | S f =>
      '(r, w) <- readr ;;
      if r =? c_cr then newline ;;; readNextSignificant_loop f true
      else if r =? c_lf then
        (if wasCR then ret tt else newline) ;;; readNextSignificant_loop f wasCR
      else if (r =? c_tab) || (r =? c_ws) || (r =? c_com) || (r =? c_bom) then
        readNextSignificant_loop f wasCR
      else ret (r, w)
  end.

Definition fuel_of (i : bytes) : nat := S (S (List.length i)).
Definition with_fuel {A} (f : nat -> M A) : M A := fun i s => f (fuel_of i) i s.

Definition readNextSignificant : M (Z * nat) := with_fuel (fun n => readNextSignificant_loop n false).

(** lexer.go:647-675 [scanName]. *)
Fixpoint scanName_loop (fuel : nat) : M unit :=
  match fuel with
  | O => nofuel
  | S f =>
      '(r, w) <- readr ;;
      if is_name_cont r then scanName_loop f
      else if r =? eof then ret tt
      else unread w
  end.

Definition scanName : M token :=
  s0 <- get ;;
  with_fuel scanName_loop ;;;
  s1 <- get ;;
  lit <- slice (Z.of_nat (pos s0) - 1)%Z (Z.of_nat (pos s1)) ;;
  ret (mkTok KName lit (line s1) (Z.of_nat (lpos s0))).

(** lexer.go:678-717 [scanPunctuator]. *)
Definition scanPunctuator (r : Z) (w : nat) : M token :=
  s0 <- get ;;
  if r =? 46 then
    '(r2, _) <- readr ;;
    '(r3, _) <- readr ;;
    if negb (r2 =? 46) || negb (r3 =? 46) then
      ret (illegal (B "invalid punctuator, expected ""..."" but got: " ++ quote_string [r; r2; r3])
             (line s0) (Z.of_nat (lpos s0)))
    else ret (mkTok KPunct (B "...") (line s0) (Z.of_nat (lpos s0)))
  else
    lit <- slice (Z.of_nat (pos s0) - Z.of_nat w)%Z (Z.of_nat (pos s0)) ;;
    ret (mkTok KPunct lit (line s0) (Z.of_nat (lpos s0))).

(** lexer.go:837-861 [readDigits]; [None] is the error return. *)
Fixpoint readDigits_loop (fuel : nat) : M (Z * nat) :=
  match fuel with
  | O => nofuel
  | S f =>
      '(r, w) <- readr ;;
      if is_digit r then readDigits_loop f else ret (r, w)
  end.

Definition readDigits (r : Z) : M (bytes + Z * nat) :=
  if negb (is_digit r) then
    ret (inl (B "invalid number, expected digit but got: " ++ quote_rune r))
  else
    rw <- with_fuel readDigits_loop ;; ret (inr rw).

(** lexer.go:720-834 [scanNumber].  Split at the three optional parts; [inl] is an Illegal token. *)
Definition num_intpart (r0 : Z) : M (bytes + Z * nat) :=          (* lexer.go:729-766 *)
  r <- (if r0 =? 45 then '(r, _) <- readr ;; ret r else ret r0) ;;
  if r =? 48 then
    '(r, w) <- readr ;;
    if is_digit r then ret (inl (B "invalid number, unexpected digit after 0: " ++ quote_rune r))
    else ret (inr (r, w))
  else readDigits r.

Definition num_fracpart (rw : Z * nat) : M (bytes + (Z * nat) * bool) :=   (* lexer.go:769-787 *)
  let '(r, w) := rw in
  if r =? 46 then
    '(r, _) <- readr ;;
    x <- readDigits r ;;
    match x with inl e => ret (inl e) | inr rw => ret (inr (rw, true)) end
  else ret (inr (rw, false)).

Definition num_exppart (rw : Z * nat) (fl : bool) : M (bytes + (Z * nat) * bool) :=  (* lexer.go:790-816 *)
  let '(r, w) := rw in
  if (r =? 101) || (r =? 69) then
    '(r, _) <- readr ;;
    r <- (if (r =? 43) || (r =? 45) then '(r, _) <- readr ;; ret r else ret r) ;;
    x <- readDigits r ;;
    match x with inl e => ret (inl e) | inr rw => ret (inr (rw, true)) end
  else ret (inr (rw, fl)).

Definition scanNumber (r : Z) : M token :=
  s0 <- get ;;
  let ill e := illegal e (line s0) (Z.of_nat (lpos s0)) in
  a <- num_intpart r ;;
  match a with
  | inl e => ret (ill e)
  | inr rw =>
      b <- num_fracpart rw ;;
      match b with
      | inl e => ret (ill e)
      | inr (rw, fl) =>
          c <- num_exppart rw fl ;;
          match c with
          | inl e => ret (ill e)
          | inr ((r, w), fl) =>
              (if r =? eof then ret tt else unread w) ;;;                     (* lexer.go:818-820 *)
              s1 <- get ;;
              lit <- slice (Z.of_nat (pos s0) - 1)%Z (Z.of_nat (pos s1)) ;;
              ret (mkTok (if fl then KFloat else KInt) lit (line s1) (Z.of_nat (lpos s0)))
          end
      end
  end.

(** lexer.go:581-591 [hexRuneToInt], lexer.go:574-577 [unicodeCodePointToRune].
    Go's 64-bit ints: the operands are -1 or 0..15, no overflow; [lor] of a negative is negative. *)
Definition hexRuneToInt (r : Z) : Z :=
  if (48 <=? r) && (r <=? 57) then (r - 48)%Z
  else if (65 <=? r) && (r <=? 70) then (r - 55)%Z
  else if (97 <=? r) && (r <=? 102) then (r - 87)%Z
  else (-1).

Definition unicodeCodePointToRune (a b c d : Z) : Z :=
  Z.lor (Z.lor (Z.lor (Z.shiftl (hexRuneToInt a) 12) (Z.shiftl (hexRuneToInt b) 8))
           (Z.shiftl (hexRuneToInt c) 4)) (hexRuneToInt d).

(** lexer.go:483-536 [escapedChar]; [inl] is the error message. *)
Definition escapedChar : M (bytes + Z) :=
  '(r, _) <- readr ;;
  if r =? 34 then ret (inr c_dq)
  else if r =? 47 then ret (inr c_fsl)
  else if r =? 92 then ret (inr c_bsl)
  else if r =? 98 then ret (inr c_bck)
  else if r =? 102 then ret (inr c_ff)
  else if r =? 110 then ret (inr c_lf)
  else if r =? 114 then ret (inr c_cr)
  else if r =? 116 then ret (inr c_tab)
  else if r =? 117 then
    '(r1, _) <- readr ;; '(r2, _) <- readr ;; '(r3, _) <- readr ;; '(r4, _) <- readr ;;
    let r := unicodeCodePointToRune r1 r2 r3 r4 in
    if r <? 0 then
      ret (inl (B "invalid character escape sequence: \u" ++ encode_rune r1 ++ encode_rune r2
                  ++ encode_rune r3 ++ encode_rune r4))
    else ret (inr r)
  else ret (inl (B "invalid character escape sequence: \" ++ encode_rune r)).

(** lexer.go:141-204: first pass of [scanString]; [inl r] = invalid character [r],
    [inr hasEscape] = closing quote found.  The byte counter [bc] is only a capacity hint. *)
Fixpoint scanString_pass1 (fuel : nat) (hasEscape : bool) : M (Z + bool) :=
  match fuel with
  | O => nofuel
  | S f =>
      '(r, _) <- readr ;;
      if r =? 34 then ret (inr hasEscape)
      else if (r <? 32) && negb (r =? c_tab) then ret (inl r)
      else if r =? c_bsl then
        '(r, _) <- readr ;;
        if r =? 117 then
          readr ;;; readr ;;; readr ;;; readr ;;; scanString_pass1 f true
        else scanString_pass1 f true
      else scanString_pass1 f hasEscape
  end.

(** lexer.go:223-259: second pass of [scanString]; accumulates the decoded bytes. *)
Fixpoint scanString_pass2 (fuel : nat) (bs : bytes) : M (bytes + bytes) :=
  match fuel with
  | O => nofuel
  | S f =>
      '(r, _) <- readr ;;
      if (r =? 34) || (r =? eof) then ret (inr bs)
      else if r =? c_bsl then
        x <- escapedChar ;;
        match x with
        | inl e => ret (inl e)
        | inr r => scanString_pass2 f (bs ++ encode_rune r)
        end
      else scanString_pass2 f (bs ++ encode_rune r)
  end.

(** lexer.go:130-260 [scanString]. *)
Definition scanString : M token :=
  s0 <- get ;;
  let ill e := illegal e (line s0) (Z.of_nat (lpos s0)) in
  let str l := mkTok KString l (line s0) (Z.of_nat (lpos s0)) in
  x <- with_fuel (fun n => scanString_pass1 n false) ;;
  match x with
  | inl r => ret (ill (B "invalid character within string: " ++ quote_rune r))
  | inr false =>
      s1 <- get ;;
      lit <- slice (Z.of_nat (pos s0)) (Z.of_nat (pos s1) - 1)%Z ;;
      ret (str lit)
  | inr true =>
      put s0 ;;;
      y <- with_fuel (fun n => scanString_pass2 n []) ;;
      match y with
      | inl e => ret (ill e)
      | inr bs => ret (str bs)
      end
  end.

(** lexer.go:458-480 [isTripQuotes] (note the exchanged eof tests on lines 473 and 476). *)
Definition isTripQuotes : M bool :=
  '(r1, w1) <- readr ;;
  '(r2, w2) <- readr ;;
  if (r1 =? 34) && (r2 =? 34) then ret true
  else
    (if negb (r1 =? eof) then unread w2 else ret tt) ;;;
    (if negb (r2 =? eof) then unread w1 else ret tt) ;;;
    ret false.

(** lexer.go:445-453 [leadingWhitespace].  Go ranges over runes but returns a byte offset; the first rune that
    is not space/tab starts at the first byte that is not.  [None] is [math.MaxInt64]. *)
Fixpoint leadingWhitespace (str : bytes) : option nat :=
  match str with
  | [] => None
  | b :: t =>
      if (zb b =? 32) || (zb b =? 9) then option_map S (leadingWhitespace t) else Some 0
  end.

(** [strings.Split(raw, "\n")] *)
Fixpoint split_lf (raw : bytes) : list bytes :=
  match raw with
  | [] => [[]]
  | b :: t =>
      if zb b =? 10 then [] :: split_lf t
      else match split_lf t with
           | [] => [[b]]                      (* unreachable: split_lf is never empty *)
           | l :: ls => (b :: l) :: ls
           end
  end.

(** lexer.go:404-417: the common indentation of all lines but the first (of the only line, if there is
    just one); [None] is [math.MaxInt64]. *)
Fixpoint commonIndent_loop (lines : list bytes) (ci : option nat) : option nat :=
  match lines with
  | [] => ci
  | l :: ls =>
      match leadingWhitespace l with
      | Some indent =>
          if Nat.ltb indent (List.length l) && match ci with None => true | Some c => Nat.ltb indent c end
          then match indent with
               | O => Some O                              (* break *)
               | _ => commonIndent_loop ls (Some indent)
               end
          else commonIndent_loop ls ci
      | None => commonIndent_loop ls ci
      end
  end.

Definition commonIndent (lines : list bytes) : option nat :=
  match lines with
  | [l] => commonIndent_loop [l] None
  | _ => commonIndent_loop (tl lines) None
  end.

(** lexer.go:419-427 *)
Definition dedent (ci : option nat) (lines : list bytes) : list bytes :=
  match ci, lines with
  | Some c, l :: ls =>
      l :: map (fun x => if Nat.ltb (List.length x) c then [] else skipn c x) ls
  | _, _ => lines
  end.

(** lexer.go:429-440: drop leading and trailing blank lines. *)
Fixpoint drop_blank (lines : list bytes) : list bytes :=
  match lines with
  | [] => []
  | l :: ls => match leadingWhitespace l with None => drop_blank ls | Some _ => lines end
  end.

Definition trim_blank (lines : list bytes) : list bytes := rev (drop_blank (rev (drop_blank lines))).

(** lexer.go:398-441 [blockStringLiteral]: the returned text ... *)
Definition blockStringValue (raw : bytes) : bytes :=
  let lines := split_lf raw in
  joinb (B (String (ascii_of_N 10) "")) (trim_blank (dedent (commonIndent lines) lines)).

(** ... and its side effect on [l.line] (line 402). *)
Definition blockStringLiteral (raw : bytes) : M bytes := fun i s =>
  Ok (blockStringValue raw) (mkL (pos s) (lpos s) (line s + List.length (split_lf raw) - 1)).

(** lexer.go:278-321: first pass of [scanBlockString]; [inl msg] = Illegal token,
    [inr (hasEscape, hasCR)] = closing quotes found. *)
Definition bs_eof_msg : bytes := B "unexpected eof, probably unclosed block string".
Definition bs_bad_msg (r : Z) : bytes := B "invalid character within block string: " ++ quote_rune r.

Fixpoint scanBlock_pass1 (fuel : nat) (hasEscape hasCR : bool) : M (bytes + bool * bool) :=
  match fuel with
  | O => nofuel
  | S f =>
      '(r, _) <- readr ;;
      if r =? c_bsl then
        '(r, _) <- readr ;;
        if r =? 34 then
          t <- isTripQuotes ;;
          scanBlock_pass1 f (if t then true else hasEscape) hasCR
        else scanBlock_pass1 f hasEscape hasCR
      else if r =? c_cr then scanBlock_pass1 f hasEscape true
      else if r =? eof then ret (inl bs_eof_msg)
      else if (r <? 32) && negb (r =? c_tab) && negb (r =? c_lf) && negb (r =? c_cr) then
        ret (inl (bs_bad_msg r))
      else if r =? 34 then
        t <- isTripQuotes ;;
        if t then ret (inr (hasEscape, hasCR)) else scanBlock_pass1 f hasEscape hasCR
      else scanBlock_pass1 f hasEscape hasCR
  end.

(** lexer.go:338-386: second pass of [scanBlockString]; accumulates the raw value.
    [bytes.Buffer.WriteRune] is the standard encoder (= [encode_rune] on the runes that occur). *)
Fixpoint scanBlock_pass2 (fuel : nat) (buf : bytes) : M (bytes + bytes) :=
  match fuel with
  | O => nofuel
  | S f =>
      '(r, _) <- readr ;;
      if r =? c_lf then scanBlock_pass2 f (buf ++ encode_rune r)
      else if r =? c_cr then
        i <- input ;; s <- get ;;
        match nth_error i (pos s + 1) with                        (* l.input[l.pos+1], lexer.go:347 *)
        | None => panic
        | Some b => scanBlock_pass2 f (if zb b =? 10 then buf else buf ++ encode_rune c_lf)
        end
      else if r =? c_bsl then
        '(r, _) <- readr ;;
        if r =? 34 then
          t <- isTripQuotes ;;
          scanBlock_pass2 f (if t then buf ++ B """""""" else buf ++ encode_rune c_bsl ++ encode_rune r)
        else scanBlock_pass2 f (buf ++ encode_rune c_bsl ++ encode_rune r)
      else if r =? eof then ret (inl bs_eof_msg)
      else
        t <- (if r =? 34 then isTripQuotes else ret false) ;;
        if t then ret (inr buf)
        else if (r <? 32) && negb (r =? c_tab) && negb (r =? c_lf) && negb (r =? c_cr) then
          ret (inl (bs_bad_msg r))
        else scanBlock_pass2 f (buf ++ encode_rune r)
  end.

(** lexer.go:263-394 [scanBlockString]. *)
Definition scanBlockString : M token :=
  s0 <- get ;;
  let col := (Z.of_nat (lpos s0) - 2)%Z in
  x <- with_fuel (fun n => scanBlock_pass1 n false false) ;;
  match x with
  | inl e => ret (illegal e (line s0) col)
  | inr (hasEscape, hasCR) =>
      if negb hasCR && negb hasEscape then
        s1 <- get ;;
        raw <- slice (Z.of_nat (pos s0)) (Z.of_nat (pos s1) - 3)%Z ;;
        lit <- blockStringLiteral raw ;;
        ret (mkTok KString lit (line s0) col)
      else
        put s0 ;;;
        y <- with_fuel (fun n => scanBlock_pass2 n []) ;;
        match y with
        | inl e => ret (illegal e (line s0) col)
        | inr buf =>
            lit <- blockStringLiteral buf ;;
            ret (mkTok KString lit (line s0) col)
        end
  end.

(** lexer.go:594-644 [scanComment] up to the point where it calls [l.Scan()]. *)
Fixpoint scanComment_loop (fuel : nat) (wasCR : bool) : M unit :=
  match fuel with
  | O => nofuel
  | S f =>
      '(r, w) <- readr ;;
      if r =? eof then ret tt
      else if wasCR && (r =? c_lf) then set_lpos 0
      else if wasCR && negb (r =? c_lf) then unread w
      else if r =? c_cr then newline ;;; scanComment_loop f true
      else if r =? c_lf then newline
      else scanComment_loop f wasCR
  end.

(** lexer.go:74-127 [Scan]; the recursion through [scanComment] takes fuel. *)
Fixpoint scan_loop (fuel : nat) : M token :=
  match fuel with
  | O => nofuel
  | S f =>
      '(r, w) <- readNextSignificant ;;
      if is_name_start r then scanName
      else if is_punct r then scanPunctuator r w
      else if is_digit r || (r =? 45) then scanNumber r
      else if r =? 35 then
        with_fuel (fun n => scanComment_loop n false) ;;; scan_loop f
      else if r =? 34 then
        '(r1, w1) <- readr ;;
        '(r2, w2) <- readr ;;
        if (r1 =? 34) && (r2 =? 34) then scanBlockString
        else unread w2 ;;; unread w1 ;;; scanString
      else if r =? eof then
        s <- get ;; ret (mkTok KEOF [] (line s) (Z.of_nat (lpos s) + 1)%Z)
      else
        s <- get ;; ret (mkTok KIllegal (encode_rune r) (line s) (Z.of_nat (lpos s)))
  end.

Definition scan : M token := with_fuel scan_loop.

(** Every caller of the lexer stops at the first EOF or Illegal token: the tokens delivered up to and
    including it, as the parser (parser.go) and the tests (lexer_test.go) see them. *)
Definition is_last (t : token) : bool :=
  match tkind t with KEOF | KIllegal => true | _ => false end.

Fixpoint lex_loop (fuel : nat) (i : bytes) (s : lst) : outcome (list token) :=
  match fuel with
  | O => Fuel
  | S f =>
      match scan i s with
      | Ok t s' =>
          if is_last t then Ok [t] s'
          else match lex_loop f i s' with
               | Ok ts s'' => Ok (t :: ts) s''
               | Panic => Panic | Fuel => Fuel
               end
      | Panic => Panic
      | Fuel => Fuel
      end
  end.

Definition lex_all (i : bytes) : outcome (list token) := lex_loop (fuel_of i) i lex_init.
