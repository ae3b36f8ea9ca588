(** * Utf8: UTF-8 as a specification, Go's [utf8.DecodeRune], and the lexer's private encoder. *)
From Verif Require Import Base.
Local Open Scope Z_scope.

(** ** Specification (RFC 3629), written with plain arithmetic. *)

(** Unicode scalar values. *)
Definition scalar (c : Z) : Prop := (0 <= c < 55296) \/ (57344 <= c <= 1114111).

Definition scalarb (c : Z) : bool :=
  ((0 <=? c) && (c <? 55296)) || ((57344 <=? c) && (c <=? 1114111)).

(** The UTF-8 encoding of one scalar value. *)
Definition utf8 (c : Z) : bytes :=
  if c <? 128 then [bz c]
  else if c <? 2048 then [bz (192 + c / 64); bz (128 + c mod 64)]
  else if c <? 65536 then [bz (224 + c / 4096); bz (128 + (c / 64) mod 64); bz (128 + c mod 64)]
  else [bz (240 + c / 262144); bz (128 + (c / 4096) mod 64); bz (128 + (c / 64) mod 64); bz (128 + c mod 64)].

(** The UTF-8 encoding of a text. *)
Definition utf8s (cs : list Z) : bytes := flat_map utf8 cs.

(** ** Go's [unicode/utf8.DecodeRune] (standard library, modelled exactly).
    Returns the rune and its width; invalid encodings give (U+FFFD, 1), empty input (U+FFFD, 0). *)
Definition rune_error : Z := 65533.

Definition in_range (lo hi : Z) (b : byte) : bool := (lo <=? zb b) && (zb b <=? hi).

Definition decode2 (z0 : Z) (t : bytes) (lo hi : Z) : Z * nat :=
  match t with
  | b1 :: _ => if in_range lo hi b1 then ((z0 - 192) * 64 + (zb b1 - 128), 2%nat) else (rune_error, 1%nat)
  | [] => (rune_error, 1%nat)
  end.

Definition decode3 (z0 : Z) (t : bytes) (lo hi : Z) : Z * nat :=
  match t with
  | b1 :: b2 :: _ =>
      if in_range lo hi b1 && in_range 128 191 b2
      then ((z0 - 224) * 4096 + (zb b1 - 128) * 64 + (zb b2 - 128), 3%nat) else (rune_error, 1%nat)
  | _ => (rune_error, 1%nat)
  end.

Definition decode4 (z0 : Z) (t : bytes) (lo hi : Z) : Z * nat :=
  match t with
  | b1 :: b2 :: b3 :: _ =>
      if in_range lo hi b1 && in_range 128 191 b2 && in_range 128 191 b3
      then ((z0 - 240) * 262144 + (zb b1 - 128) * 4096 + (zb b2 - 128) * 64 + (zb b3 - 128), 4%nat)
      else (rune_error, 1%nat)
  | _ => (rune_error, 1%nat)
  end.

Definition decode_rune (p : bytes) : Z * nat :=
  match p with
  | [] => (rune_error, 0%nat)
  | b0 :: t =>
      let z0 := zb b0 in
      if z0 <? 128 then (z0, 1%nat)
      else if z0 <? 194 then (rune_error, 1%nat)
      else if z0 <? 224 then decode2 z0 t 128 191
      else if z0 =? 224 then decode3 z0 t 160 191
      else if z0 =? 237 then decode3 z0 t 128 159
      else if z0 <? 240 then decode3 z0 t 128 191
      else if z0 =? 240 then decode4 z0 t 144 191
      else if z0 <? 244 then decode4 z0 t 128 191
      else if z0 =? 244 then decode4 z0 t 128 143
      else (rune_error, 1%nat)
  end.

(** ** language/lexer.go:542-567 [encodeRune]: the private copy of [utf8.EncodeRune].
    Go evaluates [i := uint32(r)], i.e. [r mod 2^32]; the constants are lexer.go:30-49.
    The callback is modelled by returning the list of emitted bytes. *)
Definition encode_rune (r : Z) : bytes :=
  let i := r mod 4294967296 in
  let three r :=
    [bz (Z.lor 224 (zb (bz (Z.shiftr r 12))));
     bz (Z.lor 128 (Z.land (zb (bz (Z.shiftr r 6))) 63));
     bz (Z.lor 128 (Z.land (zb (bz r)) 63))] in
  if i <=? 127 then [bz r]
  else if i <=? 2047 then
    [bz (Z.lor 192 (zb (bz (Z.shiftr r 6)))); bz (Z.lor 128 (Z.land (zb (bz r)) 63))]
  else if (1114111 <? i) || ((55296 <=? i) && (i <=? 57343)) then three rune_error
  else if i <=? 65535 then three r
  else
    [bz (Z.lor 240 (zb (bz (Z.shiftr r 18))));
     bz (Z.lor 128 (Z.land (zb (bz (Z.shiftr r 12))) 63));
     bz (Z.lor 128 (Z.land (zb (bz (Z.shiftr r 6))) 63));
     bz (Z.lor 128 (Z.land (zb (bz r)) 63))].

Example enc_ex : encode_rune 128515 = utf8 128515 /\ encode_rune 55296 = utf8 65533 /\ encode_rune (-1) = utf8 65533
  /\ decode_rune (utf8 128515 ++ B "x") = (128515, 4%nat).
Proof. repeat split; vm_compute; reflexivity. Qed.
