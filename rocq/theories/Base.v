(** * Base: bytes, Go strings, small helpers shared by the whole model. *)
From Coq Require Export List Arith ZArith Lia Bool Ascii String.
From Coq Require Import ZifyBool ZifyNat ZifyN.
Export ListNotations.
#[global] Open Scope list_scope.

(** A Go [byte] is an 8-bit [ascii]; a Go [string] / [[]byte] is a list of them. *)
Definition byte := ascii.
Definition bytes := list byte.

(** String literals of the Go source. *)
Definition B (s : string) : bytes := list_ascii_of_string s.

(** The value of a byte as an integer (Go: [rune(b)]). *)
Definition zb (b : byte) : Z := Z.of_N (N_of_ascii b).

(** Go's conversion [byte(x)]: the low eight bits. *)
Definition bz (z : Z) : byte := ascii_of_N (Z.to_N (z mod 256)).

Lemma zb_range b : (0 <= zb b < 256)%Z.
Proof. unfold zb. pose proof (N_ascii_bounded b). lia. Qed.

Lemma bz_zb b : bz (zb b) = b.
Proof.
  unfold bz, zb. pose proof (N_ascii_bounded b).
  rewrite Z.mod_small by lia. rewrite N2Z.id. apply ascii_N_embedding.
Qed.

Lemma zb_bz z : (0 <= z < 256)%Z -> zb (bz z) = z.
Proof.
  intros H. unfold bz, zb. rewrite Z.mod_small by lia.
  rewrite N_ascii_embedding by lia. lia.
Qed.

Lemma zb_inj a b : zb a = zb b -> a = b.
Proof. intros H. rewrite <- (bz_zb a), <- (bz_zb b), H. reflexivity. Qed.

(** Equality of Go strings. *)
Fixpoint beqb (a b : bytes) : bool :=
  match a, b with
  | [], [] => true
  | x :: a', y :: b' => Ascii.eqb x y && beqb a' b'
  | _, _ => false
  end.

Lemma beqb_spec a b : reflect (a = b) (beqb a b).
Proof.
  revert b; induction a as [|x a IH]; destruct b as [|y b]; simpl; try (constructor; congruence).
  destruct (Ascii.eqb_spec x y) as [->|Hn]; simpl.
  - destruct (IH b); constructor; congruence.
  - constructor; congruence.
Qed.

Lemma beqb_refl a : beqb a a = true.
Proof. destruct (beqb_spec a a); congruence. Qed.

Lemma beqb_true a b : beqb a b = true <-> a = b.
Proof. destruct (beqb_spec a b); split; congruence. Qed.

Lemma beqb_false a b : beqb a b = false <-> a <> b.
Proof. destruct (beqb_spec a b); split; congruence. Qed.

Lemma beqb_sym a b : beqb a b = beqb b a.
Proof. destruct (beqb_spec a b), (beqb_spec b a); congruence. Qed.

Definition bytes_dec (a b : bytes) : {a = b} + {a <> b}.
Proof. decide equality. apply ascii_dec. Defined.

(** Membership of a string in a list of strings. *)
Definition inb (x : bytes) (l : list bytes) : bool := existsb (beqb x) l.

Lemma inb_In x l : inb x l = true <-> In x l.
Proof.
  unfold inb. rewrite existsb_exists. split.
  - intros (y & Hy & He). apply beqb_true in He. subst. exact Hy.
  - intros H. exists x. split; [exact H | apply beqb_refl].
Qed.

Lemma inb_notIn x l : inb x l = false <-> ~ In x l.
Proof. rewrite <- inb_In. destruct (inb x l); split; congruence. Qed.

(** Decimal rendering, Go's [strconv.Itoa] on non-negative integers (fuel = an upper
    bound on the number of digits). *)
Fixpoint digits_of (fuel : nat) (n : N) (acc : bytes) : bytes :=
  match fuel with
  | O => acc
  | S f =>
      let d := ascii_of_N (48 + N.modulo n 10) in
      if N.ltb n 10 then d :: acc else digits_of f (N.div n 10) (d :: acc)
  end.

Definition itoaN (n : N) : bytes := digits_of (S (N.to_nat (N.log2 n))) n [].
Definition itoa (z : Z) : bytes :=
  if Z.ltb z 0 then B "-" ++ itoaN (Z.to_N (- z)) else itoaN (Z.to_N z).

Example itoa_ex : itoa 1204 = B "1204" /\ itoa (-70) = B "-70" /\ itoa 0 = B "0".
Proof. repeat split; vm_compute; reflexivity. Qed.

(** [strings.Join] on Go strings. *)
Fixpoint joinb (sep : bytes) (l : list bytes) : bytes :=
  match l with
  | [] => []
  | [x] => x
  | x :: l' => x ++ sep ++ joinb sep l'
  end.
