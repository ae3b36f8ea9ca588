(** * Response: model of lab/server/response.go (the marshalling of server responses). *)
From Coq Require Import NArith.
From Verif Require Import Base.

(** Go's [float64]: an IEEE value given by its class; a finite one is (-1)^neg * m * 2^e.  Simplification: [m] and [e] are not bounded
    to 53 bits and the exponent range; the code below treats them alike. *)
Inductive float64 := FNaN | FInf (neg : bool) | FFin (neg : bool) (m : N) (e : Z).

(** response.go:11-19 the kinds. *)
Definition KindInt : Z := 0. Definition KindFloat : Z := 1. Definition KindString : Z := 2. Definition KindBoolean : Z := 3.
Definition KindNull : Z := 4. Definition KindArray : Z := 5. Definition KindObject : Z := 6.

(** response.go:26-40 [ResponseValue] with all its fields, [ResponseObjectField] (a pair of a name and a value).  [Kind] is any int. *)
Inductive rvalue := RV (kind : Z) (int_ : Z) (float_ : float64) (str_ : bytes) (bool_ : bool) (array_ : list rvalue) (object_ : list (bytes * rvalue)).
Definition rkind (v : rvalue) : Z := let '(RV k _ _ _ _ _ _) := v in k.
Definition rint (v : rvalue) : Z := let '(RV _ i _ _ _ _ _) := v in i.
Definition rfloat (v : rvalue) : float64 := let '(RV _ _ f _ _ _ _) := v in f.
Definition rstr (v : rvalue) : bytes := let '(RV _ _ _ s _ _ _) := v in s.
Definition rbool (v : rvalue) : bool := let '(RV _ _ _ _ b _ _) := v in b.
Definition rarray (v : rvalue) : list rvalue := let '(RV _ _ _ _ _ a _) := v in a.
Definition robject (v : rvalue) : list (bytes * rvalue) := let '(RV _ _ _ _ _ _ o) := v in o.

(** the integer nearest to m * 2^e * 10^5, halves to even *)
Definition scaled (m : N) (e : Z) : N :=
  (if (0 <=? e)%Z then m * 2 ^ Z.to_N e * 100000
   else let d := 2 ^ Z.to_N (- e) in let q := m * 100000 / d in let r := (m * 100000) mod d in
        if (d <? 2 * r) || (d =? 2 * r) && N.odd q then q + 1 else q)%N.
Definition digit_at (n p : N) : byte := ascii_of_N (48 + (n / p) mod 10).
(** response.go:52: Go's [strconv.FormatFloat(x, 'f', 5, 64)] (standard library: exact decimal expansion rounded to 5 places, halves to even;
    "NaN", "+Inf", "-Inf" for the others). *)
Definition format_float (x : float64) : bytes :=
  match x with
  | FNaN => B "NaN"
  | FInf neg => if neg then B "-Inf" else B "+Inf"
  | FFin neg m e =>
      let n := scaled m e in
      (if neg then B "-" else []) ++ itoaN (n / 100000) ++ B "." ++ map (digit_at n) [10000; 1000; 100; 10; 1]%N
  end.
Example format_float_ex : map format_float [FFin false 1 0; FFin true 0 0; FFin false 8687021468732621 (-46); FFin true 3 (-1); FFin false 5 (-6); FFin false 3 70; FFin false 1 (-100); FFin false 3125 (-6); FFin false 9375 (-6); FFin false 1 (-6)] =
  [B "1.00000"; B "-0.00000"; B "123.45000"; B "-1.50000"; B "0.07812"; B "3541774862152233910272.00000"; B "0.00000"; B "48.82812"; B "146.48438"; B "0.01562"].
Proof. vm_compute. reflexivity. Qed.

(** a call of [MarshalGraphQL(buf)]: the buffer afterwards, and whether the error returned is nil *)
Definition written := (bytes * bool)%type.

(** response.go:46-107 [ResponseValue.MarshalGraphQL].  The loops carry the index [i] and the length of the slice; an error of an element ends them. *)
Fixpoint marshal_value (v : rvalue) (buf : bytes) {struct v} : written :=
  match v with
  | RV kind int_ float_ str_ bool_ array_ object_ =>
      if (kind =? KindInt)%Z then (buf ++ itoa int_, true)
      else if (kind =? KindFloat)%Z then (buf ++ format_float float_, true)
      else if (kind =? KindString)%Z then
        let buf := buf ++ [bz 34] in let buf := buf ++ str_ in (buf ++ [bz 34], true)
      else if (kind =? KindBoolean)%Z then (if bool_ then (buf ++ B "true", true) else (buf ++ B "false", true))
      else if (kind =? KindNull)%Z then (buf ++ B "null", true)
      else if (kind =? KindArray)%Z then
        let buf := buf ++ B "[" in
        let fix loop (i : nat) (l : list rvalue) (buf : bytes) : written :=
          match l with
          | [] => (buf, true)
          | av :: l =>
              let '(buf, ok) := marshal_value av buf in
              if negb ok then (buf, false)
              else let buf := if (Z.of_nat i <? Z.of_nat (List.length array_) - 1)%Z then buf ++ B "," else buf in
                   loop (S i) l buf
          end in
        let '(buf, ok) := loop 0 array_ buf in
        if negb ok then (buf, false) else (buf ++ B "]", true)
      else if (kind =? KindObject)%Z then
        let buf := buf ++ B "{" in
        let fix loop (i : nat) (l : list (bytes * rvalue)) (buf : bytes) : written :=
          match l with
          | [] => (buf, true)
          | (name, val) :: l =>
              let buf := buf ++ [bz 34] in let buf := buf ++ name in let buf := buf ++ [bz 34] in let buf := buf ++ B ":" in
              let '(buf, ok) := marshal_value val buf in
              if negb ok then (buf, false)
              else let buf := if (Z.of_nat i <? Z.of_nat (List.length object_) - 1)%Z then buf ++ B "," else buf in
                   loop (S i) l buf
          end in
        let '(buf, ok) := loop 0 object_ buf in
        if negb ok then (buf, false) else (buf ++ B "}", true)
      else (buf, false)
  end.

(** response.go:110-113 [Response]. [Errors] is a list of Go errors, of which only the text is kept here. *)
Record response := mkResponse { r_data : rvalue; r_errors : list bytes }.
(** response.go:116-138 [Response.MarshalGraphQL]: the bytes returned; [None] when an error is returned instead. *)
Definition marshal_response (r : response) : option bytes :=
  let buf := [] ++ B "{" in
  let buf := buf ++ ([bz 34] ++ B "data" ++ [bz 34] ++ B ":") in
  if (negb (rkind (r_data r) =? KindNull) && negb (rkind (r_data r) =? KindObject))%Z then None
  else let '(buf, ok) := marshal_value (r_data r) buf in
       if negb ok then None else let buf := buf ++ B "}" in Some buf.
