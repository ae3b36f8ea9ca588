(** * Suggest: model of validation/utils.go:212-318 ([OrList], [QuotedOrList], [SuggestionList]). *)
From Coq Require Import Permutation.
From Verif Require Import Base AST Context Utils Errors.

(** utils.go:214-236 [OrList].  Slicing [items[:n]] is [firstn n], indexing is [nth]; all the indices are in range. *)
Definition or_list (items : list bytes) : go bytes :=
  let itemCount := List.length items in
  if (itemCount =? 0)%nat then GPanic
  else if (itemCount =? 1)%nat then GOk (nth 0 items [])
  else if (itemCount =? 2)%nat then GOk (nth 0 items [] ++ B " or " ++ nth 1 items [])
  else
    let '(items, itemCount) := if (5 <? itemCount)%nat then (firstn 5 items, 5) else (items, itemCount) in
    let '(items, last) := (firstn (itemCount - 1) items, nth (itemCount - 1) items []) in
    GOk (joinb (B ", ") items ++ B ", or " ++ last).

(** utils.go:240-242: the loop that assigns to [items[i]] for i, i+1, …, in the caller's array. *)
Fixpoint quote_from (n i : nat) (items : list bytes) : list bytes :=
  match n with
  | 0 => items
  | S n => quote_from n (S i) (firstn i items ++ (quote ++ nth i items [] ++ quote) :: skipn (S i) items)
  end.
(** utils.go:239-245 [QuotedOrList]: the caller's slice after the call, and the result. *)
Definition quoted_or_list (items : list bytes) : list bytes * go bytes :=
  let items := quote_from (List.length items) 0 items in (items, or_list items).

Section Suggest.
  (** [strings.ToLower] and [levenshtein.ComputeDistance] (github.com/agnivade/levenshtein, not in the repository). *)
  Variables (lower : bytes -> bytes) (lev : bytes -> bytes -> Z).
  (** utils.go:304-318 [lexicalDistance]. *)
  Definition lexical_distance (a b : bytes) : Z :=
    if beqb a b then 0%Z
    else let a := lower a in let b := lower b in
         if beqb a b then 1%Z else lev a b.
  (** utils.go:255-275: the map from option to distance. *)
  Definition options_by_distance (input : bytes) (options : list bytes) : emap Z :=
    let it := Z.of_nat (List.length input / 2) in
    fold_left (fun m option =>
      let ot := Z.of_nat (List.length option / 2) in
      let threshold := it in
      let threshold := if (it <? ot)%Z then ot else threshold in
      let threshold := if (threshold <? 1)%Z then 1%Z else threshold in
      let distance := lexical_distance input option in
      if (distance <=? threshold)%Z then mset option distance m else m) options [].
  (** utils.go:284-291: the comparison; a missing key reads as zero. *)
  Definition by_distance (m : emap Z) (a b : bytes) : bool :=
    let d k := match mget k m with Some d => d | None => 0%Z end in
    if (d a =? d b)%Z then (List.length b <? List.length a)%nat else (d a <? d b)%Z.
  (** utils.go:251-293 [SuggestionList]: it may return [out] (sort.Slice is only determined up to ties, Errors.v). *)
  Definition suggestion_list (input : bytes) (options out : list bytes) : Prop :=
    let m := options_by_distance input options in
    slice_sorted (by_distance m) (filter (fun o => mem o m) options) out.
End Suggest.
