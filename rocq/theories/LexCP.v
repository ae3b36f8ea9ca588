(** * LexCP: an intermediate lexer on code points (proof device).
    On clean sources (valid UTF-8 without NUL) the byte-level model [Lexer.scan] is proved equal to [cscan]
    (LexRefine.v); the inductive grammar of LexSpec.v is then compared with [cscan] only.  Nothing here is part of
    a property statement. *)
From Verif Require Import Base Utf8 Lexer.
Local Open Scope lex_scope.

(** Ignored text; modes of the skipping automaton. *)
Inductive mode := Norm (wasCR : bool) | Com | ComCR.

Definition ignorable (c : Z) : bool := (c =? c_tab) || (c =? c_ws) || (c =? c_com) || (c =? c_bom).

Fixpoint skip (cs : list Z) (m : mode) (ln lp : nat) : list Z * nat * nat :=
  match cs with
  | [] => ([], ln, lp)
  | c :: t =>
      let norm (wc : bool) :=
        if c =? c_cr then skip t (Norm true) (S ln) 0
        else if c =? c_lf then
          (if wc then skip t (Norm wc) ln (lp + 1) else skip t (Norm wc) (S ln) 0)
        else if ignorable c then skip t (Norm wc) ln (lp + 1)
        else if c =? 35 then skip t Com ln (lp + 1)
        else (cs, ln, lp) in
      match m with
      | Norm wc => norm wc
      | Com =>
          if c =? c_cr then skip t ComCR (S ln) 0
          else if c =? c_lf then skip t (Norm false) (S ln) 0
          else skip t Com ln (lp + 1)
      | ComCR => if c =? c_lf then skip t (Norm false) ln 0 else norm false
      end
  end.

Fixpoint span (p : Z -> bool) (cs : list Z) : list Z * list Z :=
  match cs with
  | [] => ([], [])
  | c :: t => if p c then let '(a, b) := span p t in (c :: a, b) else ([], cs)
  end.

Definition cdigits (cs : list Z) : option (list Z * list Z) :=
  match span is_digit cs with
  | ([], _) => None
  | (d, r) => Some (d, r)
  end.

Definition c_sign (cs : list Z) : list Z * list Z :=
  match cs with
  | c :: t => if c =? 45 then ([c], t) else ([], cs)
  | [] => ([], [])
  end.

Definition c_intpart (cs : list Z) : option (list Z * list Z) :=
  match cs with
  | c :: t =>
      if c =? 48 then
        match t with
        | d :: _ => if is_digit d then None else Some ([c], t)
        | [] => Some ([c], t)
        end
      else cdigits cs
  | [] => None
  end.

Definition c_fracpart (cs : list Z) : option (list Z * bool * list Z) :=
  match cs with
  | c :: t =>
      if c =? 46 then
        match cdigits t with Some (d, r) => Some (c :: d, true, r) | None => None end
      else Some ([], false, cs)
  | [] => Some ([], false, [])
  end.

Definition c_expsign (cs : list Z) : list Z * list Z :=
  match cs with
  | c :: t => if (c =? 43) || (c =? 45) then ([c], t) else ([], cs)
  | [] => ([], [])
  end.

Definition c_exppart (cs : list Z) : option (list Z * bool * list Z) :=
  match cs with
  | c :: t =>
      if (c =? 101) || (c =? 69) then
        let '(sg, t') := c_expsign t in
        match cdigits t' with Some (d, r) => Some (c :: sg ++ d, true, r) | None => None end
      else Some ([], false, cs)
  | [] => Some ([], false, [])
  end.

Definition cnum (cs : list Z) : option (list Z * bool * list Z) :=
  let '(sg, cs1) := c_sign cs in
  match c_intpart cs1 with
  | None => None
  | Some (ip, cs2) =>
      match c_fracpart cs2 with
      | None => None
      | Some (fp, f1, cs3) =>
          match c_exppart cs3 with
          | None => None
          | Some (ep, f2, cs4) => Some (sg ++ ip ++ fp ++ ep, f1 || f2, cs4)
          end
      end
  end.

(** Simple escapes. *)
Definition c_escape (e : Z) : option Z :=
  if e =? 34 then Some c_dq
  else if e =? 47 then Some c_fsl
  else if e =? 92 then Some c_bsl
  else if e =? 98 then Some c_bck
  else if e =? 102 then Some c_ff
  else if e =? 110 then Some c_lf
  else if e =? 114 then Some c_cr
  else if e =? 116 then Some c_tab
  else None.

Definition push {A C} (v : list A) (x : option (list A * C)) : option (list A * C) :=
  match x with Some (vs, r) => Some (v ++ vs, r) | None => None end.

(** Body of a quoted string, after the opening quote: decoded value and rest. *)
Fixpoint cstr (cs : list Z) : option (list Z * list Z) :=
  match cs with
  | [] => None
  | c :: t =>
      if c =? 34 then Some ([], t)
      else if (c <? 32) && negb (c =? c_tab) then None
      else if c =? c_bsl then
        match t with
        | [] => None
        | e :: t1 =>
            if e =? 117 then
              match t1 with
              | h1 :: h2 :: h3 :: h4 :: t2 =>
                  let r := unicodeCodePointToRune h1 h2 h3 h4 in
                  if r <? 0 then None else push [r] (cstr t2)
              | _ => None
              end
            else match c_escape e with
                 | Some r => push [r] (cstr t1)
                 | None => None
                 end
        end
      else push [c] (cstr t)
  end.

(** Body of a block string, after the opening quotes: raw value (as the Go code computes it) and rest. *)
Definition cr_value (t : list Z) : list Z :=
  match t with
  | x :: y :: _ => if (x <? 128) && (y =? c_lf) then [] else [c_lf]
  | _ => [c_lf]
  end.

Definition two_quotes (t : list Z) : bool :=
  match t with x :: y :: _ => (x =? 34) && (y =? 34) | _ => false end.

Fixpoint cblk (cs : list Z) : option (list Z * list Z) :=
  match cs with
  | [] => None
  | c :: t =>
      if c =? c_bsl then
        match t with
        | [] => None
        | e :: t1 =>
            if (e =? 34) && two_quotes t1 then
              match t1 with
              | _ :: _ :: t2 => push [34%Z; 34%Z; 34%Z] (cblk t2)
              | _ => None
              end
            else push [c; e] (cblk t1)
        end
      else if c =? c_cr then push (cr_value t) (cblk t)
      else if (c <? 32) && negb (c =? c_tab) && negb (c =? c_lf) then None
      else if (c =? 34) && two_quotes t then
        match t with
        | _ :: _ :: t2 => Some ([], t2)
        | _ => None
        end
      else push [c] (cblk t)
  end.

(** Bytes denoted by decoded code points. *)
Definition text (v : list Z) : bytes := flat_map encode_rune v.

Inductive cres :=
| CEof (ln : nat) (col : Z)
| CIll (ln : nat) (col : Z)
| CTok (k : kind) (lit : bytes) (ln : nat) (col : Z) (rest : list Z) (ln' lp' : nat).

Definition count_lf (v : bytes) : nat := List.length (split_lf v) - 1.

(** One token, from significant text; [lp] counts the runes of the line before it. *)
Definition ctoken (cs : list Z) (ln lp : nat) : cres :=
  match cs with
  | [] => CEof ln (Z.of_nat lp + 1)%Z
  | c :: t =>
      let col := (Z.of_nat lp + 1)%Z in
      if is_name_start c then
        let '(nm, r) := span is_name_cont t in
        CTok KName (text (c :: nm)) ln col r ln (lp + 1 + List.length nm)
      else if is_punct c then
        if c =? 46 then
          if match t with x :: y :: _ => (x =? 46) && (y =? 46) | _ => false end
          then CTok KPunct (B "...") ln col (skipn 2 t) ln (lp + 3)
          else CIll ln col
        else CTok KPunct (text [c]) ln col t ln (lp + 1)
      else if is_digit c || (c =? 45) then
        match cnum cs with
        | Some (lex, fl, r) =>
            CTok (if fl then KFloat else KInt) (text lex) ln col r ln (lp + List.length lex)
        | None => CIll ln col
        end
      else if c =? 34 then
        if two_quotes t then
          match cblk (skipn 2 t) with
          | Some (raw, r) =>
              CTok KString (blockStringValue (text raw)) ln col r (ln + count_lf (text raw))
                (lp + 3 + (List.length t - 2 - List.length r))
          | None => CIll ln col
          end
        else
          let lp0 := lp + 1 - (2 - List.length t) in
          match cstr t with
          | Some (v, r) => CTok KString (text v) ln (Z.of_nat lp0) r ln (lp0 + (List.length t - List.length r))
          | None => CIll ln (Z.of_nat lp0)
          end
      else CIll ln col
  end.

Definition cscan (cs : list Z) (ln lp : nat) : cres :=
  let '(r, ln', lp') := skip cs (Norm false) ln lp in ctoken r ln' lp'.

Fixpoint clex (fuel : nat) (cs : list Z) (ln lp : nat) : list (kind * bytes * nat * Z) :=
  match fuel with
  | O => []
  | S f =>
      match cscan cs ln lp with
      | CEof l c => [(KEOF, [], l, c)]
      | CIll l c => [(KIllegal, [], l, c)]
      | CTok k lit l c r ln' lp' => (k, lit, l, c) :: clex f r ln' lp'
      end
  end.
