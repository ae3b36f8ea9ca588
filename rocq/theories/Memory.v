(** * Memory: where the literals of the tokens lie — a second model of language/lexer.go that keeps apart the literals that share the
    caller's buffer and those that have memory of their own.

    language/util.go:5-8 [btos] turns a slice into a string without copying it: a literal made by [btos(l.input[a:b])] is the piece of
    the buffer from [a] to [b], whatever the buffer holds when the literal is looked at.  The control flow is that of Lexer.v; the
    functions below differ from those of Lexer.v in what they make of a literal only. *)
From Verif Require Import Base Utf8 Lexer.
Local Open Scope lex_scope.

(** A Go string: a piece of the buffer, or a value with memory of its own. *)
Inductive gostring := Buffer (a b : nat) | Own (l : bytes).
(** What it reads as when the buffer holds [i]. *)
Definition held (i : bytes) (h : gostring) : bytes :=
  match h with Buffer a b => firstn (b - a) (skipn a i) | Own l => l end.

(** language/token.go:41-46: a token as it lies in memory, and as it reads when the buffer holds [i]. *)
Record mtoken := mkM { mkind : kind; mlit : gostring; mline : nat; mcol : Z }.
Definition seen (i : bytes) (m : mtoken) : token := mkTok (mkind m) (held i (mlit m)) (mline m) (mcol m).
Definition own (t : token) : mtoken := mkM (tkind t) (Own (tlit t)) (tline t) (tcol t).

(** [btos(l.input[a:b])], language/util.go:6-8. *)
Definition btos_slice (a b : Z) : M gostring :=
  slice a b ;;; ret (Buffer (Z.to_nat a) (Z.to_nat b)).

(** lexer.go:647-675 [scanName]; the literal is that of line 671. *)
Definition scanName_m : M mtoken :=
  s0 <- get ;;
  with_fuel scanName_loop ;;;
  s1 <- get ;;
  lit <- btos_slice (Z.of_nat (pos s0) - 1)%Z (Z.of_nat (pos s1)) ;;
  ret (mkM KName lit (line s1) (Z.of_nat (lpos s0))).

(** lexer.go:678-717 [scanPunctuator]; line 705 takes the constant "...", line 713 a piece of the buffer. *)
Definition scanPunctuator_m (r : Z) (w : nat) : M mtoken :=
  s0 <- get ;;
  if r =? 46 then
    '(r2, _) <- readr ;;
    '(r3, _) <- readr ;;
    if negb (r2 =? 46) || negb (r3 =? 46) then
      ret (own (illegal (B "invalid punctuator, expected ""..."" but got: " ++ quote_string [r; r2; r3])
             (line s0) (Z.of_nat (lpos s0))))
    else ret (mkM KPunct (Own (B "...")) (line s0) (Z.of_nat (lpos s0)))
  else
    lit <- btos_slice (Z.of_nat (pos s0) - Z.of_nat w)%Z (Z.of_nat (pos s0)) ;;
    ret (mkM KPunct lit (line s0) (Z.of_nat (lpos s0))).

(** lexer.go:720-834 [scanNumber]; the literal is that of line 823. *)
Definition scanNumber_m (r : Z) : M mtoken :=
  s0 <- get ;;
  let ill e := own (illegal e (line s0) (Z.of_nat (lpos s0))) in
  a <- num_intpart r ;;
  match a with
  | inl e => ret (ill e)
  | inr rw =>
      b <- num_fracpart rw ;;
      match b with
      | inl e => ret (ill e)
      | inr (rw, fl) =>
          c <- num_exppart rw fl ;;
          match c with
          | inl e => ret (ill e)
          | inr ((r, w), fl) =>
              (if r =? eof then ret tt else unread w) ;;;
              s1 <- get ;;
              lit <- btos_slice (Z.of_nat (pos s0) - 1)%Z (Z.of_nat (pos s1)) ;;
              ret (mkM (if fl then KFloat else KInt) lit (line s1) (Z.of_nat (lpos s0)))
          end
      end
  end.

(** lexer.go:130-260 [scanString]; line 209 takes a piece of the buffer, line 234 the bytes of a slice made on line 221. *)
Definition scanString_m : M mtoken :=
  s0 <- get ;;
  let ill e := own (illegal e (line s0) (Z.of_nat (lpos s0))) in
  let str l := mkM KString l (line s0) (Z.of_nat (lpos s0)) in
  x <- with_fuel (fun n => scanString_pass1 n false) ;;
  match x with
  | inl r => ret (ill (B "invalid character within string: " ++ quote_rune r))
  | inr false =>
      s1 <- get ;;
      lit <- btos_slice (Z.of_nat (pos s0)) (Z.of_nat (pos s1) - 1)%Z ;;
      ret (str lit)
  | inr true =>
      put s0 ;;;
      y <- with_fuel (fun n => scanString_pass2 n []) ;;
      match y with
      | inl e => ret (ill e)
      | inr bs => ret (str (Own bs))
      end
  end.

(** lexer.go:398-441 [blockStringLiteral] on lines that know where in [raw] they begin: [strings.Split] and slicing give pieces of
    [raw]; the constant "" of line 422 is written as an empty piece. *)
Fixpoint split_at_lf (o : nat) (raw : bytes) : list (nat * bytes) :=
  match raw with
  | [] => [(o, [])]
  | b :: t =>
      if zb b =? 10 then (o, []) :: split_at_lf (S o) t
      else match split_at_lf (S o) t with
           | [] => [(o, [b])]
           | (_, l) :: ls => (o, b :: l) :: ls
           end
  end.
Definition dedent_at (ci : option nat) (lines : list (nat * bytes)) : list (nat * bytes) :=
  match ci, lines with
  | Some c, l :: ls =>
      l :: map (fun x => if Nat.ltb (List.length (snd x)) c then (fst x, []) else (fst x + c, skipn c (snd x))) ls
  | _, _ => lines
  end.
Fixpoint drop_blank_at (lines : list (nat * bytes)) : list (nat * bytes) :=
  match lines with
  | [] => []
  | l :: ls => match leadingWhitespace (snd l) with None => drop_blank_at ls | Some _ => lines end
  end.
Definition kept_lines (raw : bytes) : list (nat * bytes) :=
  let lines := split_at_lf 0 raw in
  rev (drop_blank_at (rev (drop_blank_at (dedent_at (commonIndent (map snd lines)) lines)))).
(** [strings.Join] (standard library, strings/strings.go, as of Go 1.13): of one string it is that very string, of several a new one. *)
Definition blockString_m (raw : bytes) (h : gostring) : gostring :=
  match kept_lines raw, h with
  | [(o, l)], Buffer a _ => Buffer (a + o) (a + o + List.length l)
  | ls, _ => Own (joinb (B (String (ascii_of_N 10) "")) (map snd ls))
  end.
Definition blockStringLiteral_m (raw : bytes) (h : gostring) : M gostring :=
  blockStringLiteral raw ;;; ret (blockString_m raw h).

(** lexer.go:263-394 [scanBlockString]; line 326 passes a piece of the buffer, line 390 the bytes of a buffer made on line 336. *)
Definition scanBlockString_m : M mtoken :=
  s0 <- get ;;
  let col := (Z.of_nat (lpos s0) - 2)%Z in
  x <- with_fuel (fun n => scanBlock_pass1 n false false) ;;
  match x with
  | inl e => ret (own (illegal e (line s0) col))
  | inr (hasEscape, hasCR) =>
      if negb hasCR && negb hasEscape then
        s1 <- get ;;
        raw <- slice (Z.of_nat (pos s0)) (Z.of_nat (pos s1) - 3)%Z ;;
        lit <- blockStringLiteral_m raw (Buffer (pos s0) (pos s1 - 3)) ;;
        ret (mkM KString lit (line s0) col)
      else
        put s0 ;;;
        y <- with_fuel (fun n => scanBlock_pass2 n []) ;;
        match y with
        | inl e => ret (own (illegal e (line s0) col))
        | inr buf =>
            lit <- blockStringLiteral_m buf (Own buf) ;;
            ret (mkM KString lit (line s0) col)
        end
  end.

(** lexer.go:74-127 [Scan]; the literal of an Illegal token (line 122) is a conversion, that of EOF is the zero value. *)
Fixpoint scan_loop_m (fuel : nat) : M mtoken :=
  match fuel with
  | O => nofuel
  | S f =>
      '(r, w) <- readNextSignificant ;;
      if is_name_start r then scanName_m
      else if is_punct r then scanPunctuator_m r w
      else if is_digit r || (r =? 45) then scanNumber_m r
      else if r =? 35 then
        with_fuel (fun n => scanComment_loop n false) ;;; scan_loop_m f
      else if r =? 34 then
        '(r1, w1) <- readr ;;
        '(r2, w2) <- readr ;;
        if (r1 =? 34) && (r2 =? 34) then scanBlockString_m
        else unread w2 ;;; unread w1 ;;; scanString_m
      else if r =? eof then
        s <- get ;; ret (mkM KEOF (Own []) (line s) (Z.of_nat (lpos s) + 1)%Z)
      else
        s <- get ;; ret (mkM KIllegal (Own (encode_rune r)) (line s) (Z.of_nat (lpos s)))
  end.
Definition scan_m : M mtoken := with_fuel scan_loop_m.

(** The tokens delivered up to and including the first EOF or Illegal one, as in Lexer.v. *)
Fixpoint lex_loop_m (fuel : nat) (i : bytes) (s : lst) : outcome (list mtoken) :=
  match fuel with
  | O => Fuel
  | S f =>
      match scan_m i s with
      | Ok t s' =>
          if match mkind t with KEOF | KIllegal => true | _ => false end then Ok [t] s'
          else match lex_loop_m f i s' with
               | Ok ts s'' => Ok (t :: ts) s''
               | Panic => Panic | Fuel => Fuel
               end
      | Panic => Panic
      | Fuel => Fuel
      end
  end.
Definition in_memory (i : bytes) (ms : list mtoken) : Prop := exists s, lex_loop_m (fuel_of i) i lex_init = Ok ms s.
