(** * Json: a decoder for JSON texts (RFC 8259), the specification for C37.

    [decode] gives the value of a JSON text, [None] if it is not one.  Strings are decoded to UTF-8; ill-formed UTF-8 is
    rejected; an escaped lone surrogate gives U+FFFD.  Numbers with a fraction or an exponent are kept as text. *)
From Verif Require Import Base Utf8.

Inductive json := JNull | JBool (b : bool) | JInt (z : Z) | JReal (text : bytes) | JStr (s : bytes) | JArr (l : list json) | JObj (l : list (bytes * json)).

Definition is_ws (c : byte) : bool := existsb (Z.eqb (zb c)) [32; 9; 10; 13]%Z.
Fixpoint ws (p : bytes) : bytes := match p with c :: r => if is_ws c then ws r else p | [] => [] end.

Definition hexval (c : byte) : option Z :=
  let z := zb c in
  (if (48 <=? z) && (z <=? 57) then Some (z - 48) else if (97 <=? z) && (z <=? 102) then Some (z - 87) else if (65 <=? z) && (z <=? 70) then Some (z - 55) else None)%Z.
Definition hex4 (p : bytes) : option (Z * bytes) :=
  match p with
  | a :: b :: c :: d :: r => match hexval a, hexval b, hexval c, hexval d with
                             | Some a, Some b, Some c, Some d => Some ((((a * 16 + b) * 16 + c) * 16 + d)%Z, r)
                             | _, _, _, _ => None
                             end
  | _ => None
  end.
(** after a backslash: the characters denoted, and the rest *)
Definition escape (p : bytes) : option (bytes * bytes) :=
  match p with
  | [] => None
  | c :: r =>
      let z := zb c in
      if (z =? 34) || (z =? 92) || (z =? 47) then Some ([c], r)
      else if z =? 98 then Some ([bz 8], r) else if z =? 102 then Some ([bz 12], r) else if z =? 110 then Some ([bz 10], r)
      else if z =? 114 then Some ([bz 13], r) else if z =? 116 then Some ([bz 9], r)
      else if z =? 117 then
        match hex4 r with
        | None => None
        | Some (h, r1) =>
            if (55296 <=? h) && (h <=? 56319) then
              match r1 with
              | b1 :: b2 :: r2 => if (zb b1 =? 92) && (zb b2 =? 117) then
                                    match hex4 r2 with
                                    | Some (l, r3) => if (56320 <=? l) && (l <=? 57343) then Some (utf8 (65536 + (h - 55296) * 1024 + (l - 56320)), r3) else Some (utf8 65533, r1)
                                    | None => None
                                    end
                                  else Some (utf8 65533, r1)
              | _ => Some (utf8 65533, r1)
              end
            else if (56320 <=? h) && (h <=? 57343) then Some (utf8 65533, r1) else Some (utf8 h, r1)
        end
      else None
  end%Z.
(** the rest of a string, after its opening quote *)
Fixpoint string_rest (fuel : nat) (p acc : bytes) : option (bytes * bytes) :=
  match fuel, p with
  | 0, _ | _, [] => None
  | S fuel, _ =>
      let '(z, w) := decode_rune p in
      if (z =? 34)%Z then Some (acc, skipn 1 p)
      else if (z =? 92)%Z then match escape (skipn 1 p) with Some (s, r) => string_rest fuel r (acc ++ s) | None => None end
      else if (z <? 32)%Z || (z =? 65533)%Z && (w =? 1)%nat then None
      else string_rest fuel (skipn w p) (acc ++ firstn w p)
  end.
Definition string_lit (p : bytes) : option (bytes * bytes) :=
  match p with c :: r => if (zb c =? 34)%Z then string_rest (List.length p) r [] else None | [] => None end.

Definition is_digit (c : byte) : bool := ((48 <=? zb c) && (zb c <=? 57))%Z.
Fixpoint span_digits (p : bytes) : bytes * bytes :=
  match p with c :: r => if is_digit c then let '(a, b) := span_digits r in (c :: a, b) else ([], p) | [] => ([], []) end.
Definition dec_value (ds : bytes) : Z := fold_left (fun a d => 10 * a + (zb d - 48))%Z ds 0%Z.
Definition plain_int (ds : bytes) : bool := match ds with [] => false | [_] => true | d :: _ => negb (zb d =? 48)%Z end.
(** fraction and exponent *)
Definition fraction (p : bytes) : option (bytes * bytes) :=
  match p with
  | c :: r => if (zb c =? 46)%Z then match span_digits r with ([], _) => None | (ds, r) => Some (c :: ds, r) end else Some ([], p)
  | [] => Some ([], [])
  end.
Definition exponent (p : bytes) : option (bytes * bytes) :=
  match p with
  | c :: r => if ((zb c =? 101) || (zb c =? 69))%Z
              then let '(s, r) := match r with d :: r' => if ((zb d =? 43) || (zb d =? 45))%Z then ([d], r') else ([], r) | [] => ([], []) end in
                   match span_digits r with ([], _) => None | (ds, r) => Some (c :: s ++ ds, r) end
              else Some ([], p)
  | [] => Some ([], [])
  end.
Definition number (p : bytes) : option (json * bytes) :=
  let '(neg, p) := match p with c :: r => if (zb c =? 45)%Z then (true, r) else (false, p) | [] => (false, []) end in
  let '(ds, r) := span_digits p in
  if plain_int ds then
    match fraction r with
    | None => None
    | Some (f, r) => match exponent r with
                     | None => None
                     | Some (e, r) => match f ++ e with
                                      | [] => Some (JInt (if neg then - dec_value ds else dec_value ds)%Z, r)
                                      | t => Some (JReal ((if neg then B "-" else []) ++ ds ++ t), r)
                                      end
                     end
    end
  else None.
Definition literal (w : bytes) (v : json) (p : bytes) : option (json * bytes) :=
  if beqb (firstn (List.length w) p) w then Some (v, skipn (List.length w) p) else None.

Fixpoint value (fuel : nat) (p : bytes) : option (json * bytes) :=
  match fuel with
  | 0 => None
  | S fuel =>
      match ws p with
      | [] => None
      | c :: r =>
          (if zb c =? 34 then match string_lit (ws p) with Some (s, r) => Some (JStr s, r) | None => None end
          else if zb c =? 91 then
            match ws r with d :: r' => if zb d =? 93 then Some (JArr [], r') else items fuel [] r | [] => None end
          else if zb c =? 123 then
            match ws r with d :: r' => if zb d =? 125 then Some (JObj [], r') else members fuel [] r | [] => None end
          else if zb c =? 110 then literal (B "null") JNull (ws p)
          else if zb c =? 116 then literal (B "true") (JBool true) (ws p)
          else if zb c =? 102 then literal (B "false") (JBool false) (ws p)
          else number (ws p))%Z
      end
  end
with items (fuel : nat) (acc : list json) (p : bytes) : option (json * bytes) :=
  match fuel with
  | 0 => None
  | S fuel =>
      match value fuel p with
      | None => None
      | Some (v, r) => match ws r with
                       | [] => None
                       | c :: r => (if zb c =? 44 then items fuel (acc ++ [v]) r else if zb c =? 93 then Some (JArr (acc ++ [v]), r) else None)%Z
                       end
      end
  end
with members (fuel : nat) (acc : list (bytes * json)) (p : bytes) : option (json * bytes) :=
  match fuel with
  | 0 => None
  | S fuel =>
      match string_lit (ws p) with
      | None => None
      | Some (k, r) =>
          match ws r with
          | [] => None
          | c :: r =>
              (if zb c =? 58 then
                match value fuel r with
                | None => None
                | Some (v, r) => match ws r with
                                 | [] => None
                                 | c :: r => if zb c =? 44 then members fuel (acc ++ [(k, v)]) r else if zb c =? 125 then Some (JObj (acc ++ [(k, v)]), r) else None
                                 end
                end
              else None)%Z
          end
      end
  end.
Definition decode (p : bytes) : option json :=
  match value (S (List.length p)) p with Some (v, r) => match ws r with [] => Some v | _ => None end | None => None end.

Example decode_ex : decode (B " {""a"" : [1, -20 ,0,1.50e+3,true,null],""b\n\u0041\ud83d\ude00"":{}} ") =
  Some (JObj [(B "a", JArr [JInt 1; JInt (-20); JInt 0; JReal (B "1.50e+3"); JBool true; JNull]); (B "b" ++ bz 10 :: B "A" ++ utf8 128512, JObj [])]) /\
  map decode [B "[1,]"; B "01"; B "{""a"":1,}"; B """a"; B "nul"; B "[1] 2"; [bz 34; bz 10; bz 34]; [bz 34; bz 200; bz 34]; B "1."; B "{a:1}"; []] = repeat None 11.
Proof. split; vm_compute; reflexivity. Qed.
