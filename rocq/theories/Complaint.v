(** * Complaint: what the literal of an Illegal token has to say (specification; it mentions nothing of the model). *)
From Verif Require Import Base Utf8 LexSpec.
Local Open Scope Z_scope.

(** hexadecimal digits *)
Definition lower_digit (n : Z) (b : byte) : Prop := 0 <= n /\ nth_error (B "0123456789abcdef") (Z.to_nat n) = Some b.
(** How a character is shown between quotation marks [q] (Go 1.13's %q; characters above U+007F are shown as they are). *)
Inductive shown (q : Z) : Z -> bytes -> Prop :=
| sh_mark c : c = q \/ c = 92 -> shown q c (B "\" ++ utf8 c)
| sh_plain c : 32 <= c -> c <> q -> c <> 92 -> c <> 127 -> shown q c (utf8 c)
| sh_short c e : In (c, e) [(7, B "\a"); (8, B "\b"); (9, B "\t"); (10, B "\n"); (11, B "\v"); (12, B "\f"); (13, B "\r")] -> shown q c e
| sh_hex c hi lo h l : 0 <= c < 32 -> ~ 7 <= c <= 13 -> c = 16 * hi + lo -> lower_digit hi h -> lower_digit lo l -> shown q c (B "\x" ++ [h; l])
| sh_del : shown q 127 (B "\u007f").
Inductive all_shown (q : Z) : list Z -> bytes -> Prop :=
| as_nil : all_shown q [] []
| as_cons c t e u : shown q c e -> all_shown q t u -> all_shown q (c :: t) (e ++ u).
(** the text of a quoted character, or string of characters *)
Definition in_quotes (q : Z) (cs : list Z) (text : bytes) : Prop := exists u, all_shown q cs u /\ text = utf8 q ++ u ++ utf8 q.
(** the next character of the text; NUL at its end *)
Definition next (t : list Z) : Z := match t with c :: _ => c | [] => 0 end.

(** A number can only go on with a digit: after its sign, its point, or its exponent mark (and the sign of that, if there is one). *)
Inductive wants_digit : list Z -> list Z -> Prop :=
| wd_minus t : wants_digit [45] t
| wd_point w t : integer_part w -> wants_digit (w ++ [46]) t
| wd_exp w f x t : integer_part w -> (f = [] \/ fractional_part f) -> exp_mark x -> next t <> 43 -> next t <> 45 -> wants_digit (w ++ f ++ [x]) t
| wd_exp_sign w f x s t : integer_part w -> (f = [] \/ fractional_part f) -> exp_mark x -> s = 43 \/ s = 45 -> wants_digit (w ++ f ++ [x; s]) t.

(** The inside of a string as far as its closing quotation mark is concerned: a backslash takes the next character with it, and \u the next four. *)
Inductive inside : list Z -> Prop :=
| in_nil : inside []
| in_char c b : (c = 9 \/ 32 <= c) -> c <> 34 -> c <> 92 -> inside b -> inside (c :: b)
| in_escape e b : e <> 117 -> inside b -> inside (92 :: e :: b)
| in_unicode h1 h2 h3 h4 b : inside b -> inside (92 :: 117 :: h1 :: h2 :: h3 :: h4 :: b).
(** a string that ends (with the text) in the middle of an escape *)
Definition cut_escape (u : list Z) : Prop := u = [92] \/ exists hs, u = 92 :: 117 :: hs /\ (List.length hs < 4)%nat.

(** [block_runs t u]: inside a block string the text [t] goes on, without closing, until [u]. *)
Inductive block_runs : list Z -> list Z -> Prop :=
| br_here t : block_runs t t
| br_triple t u : block_runs t u -> block_runs (92 :: triple ++ t) u
| br_escape e t u : ~ prefix triple (e :: t) -> block_runs t u -> block_runs (92 :: e :: t) u
| br_char c t u : (c = 9 \/ c = 10 \/ c = 13 \/ 32 <= c) -> c <> 92 -> ~ prefix triple (c :: t) -> block_runs t u -> block_runs (c :: t) u.
(** what may be left of the text of a block string that is not closed: nothing, a backslash, or a quotation mark and one more character *)
Definition block_left (u : list Z) : Prop := u = [] \/ u = [92] \/ exists x, u = [34; x] \/ u = [92; 34; x].

(** [complaint rest msg]: [msg] says why no token starts the text [rest]. *)
Inductive complaint : list Z -> bytes -> Prop :=
(* a character that starts no token: the message is that character *)
| co_char c t : ~ ignored_char c -> ~ letter c -> ~ digit c -> ~ punctuator c -> ~ In c [34; 35; 45; 46] -> complaint (c :: t) (utf8 c)
(* a full stop that is not the first of three *)
| co_dots t m : ~ prefix [46; 46] t -> in_quotes 34 [46; next t; next (tl t)] m ->
    complaint (46 :: t) (B "invalid punctuator, expected ""..."" but got: " ++ m)
(* a digit after a leading zero *)
| co_zero s d t m : (s = [] \/ s = [45]) -> digit d -> in_quotes 39 [d] m -> complaint (s ++ 48 :: d :: t) (B "invalid number, unexpected digit after 0: " ++ m)
(* something else where a number needs a digit *)
| co_digit w t m : wants_digit w t -> ends digit t -> in_quotes 39 [next t] m -> complaint (w ++ t) (B "invalid number, expected digit but got: " ++ m)
(* a control character, or the end of the text, inside a string *)
| co_string b t m : inside b -> next t < 32 -> next t <> 9 -> in_quotes 39 [next t] m -> complaint (34 :: b ++ t) (B "invalid character within string: " ++ m)
| co_string_cut b u m : inside b -> cut_escape u -> in_quotes 39 [0] m -> complaint (34 :: b ++ u) (B "invalid character within string: " ++ m)
(* the first bad escape of a string that is closed *)
| co_escape b v e t c t' : string_chars b v -> (forall x, ~ escape e x) -> e <> 117 -> b ++ 92 :: e :: t = c ++ 34 :: t' -> inside c ->
    complaint (34 :: b ++ 92 :: e :: t) (B "invalid character escape sequence: \" ++ utf8 e)
| co_unicode b v h1 h2 h3 h4 t c t' : string_chars b v -> ~ (forall h, In h [h1; h2; h3; h4] -> exists x, hexdigit h x) ->
    b ++ 92 :: 117 :: h1 :: h2 :: h3 :: h4 :: t = c ++ 34 :: t' -> inside c ->
    complaint (34 :: b ++ 92 :: 117 :: h1 :: h2 :: h3 :: h4 :: t) (B "invalid character escape sequence: \u" ++ utf8s [h1; h2; h3; h4])
(* a block string that is not closed *)
| co_block t u : block_runs t u -> block_left u -> complaint (triple ++ t) (B "unexpected eof, probably unclosed block string")
(* a control character in a block string *)
| co_block_char t c u m : block_runs t (c :: u) -> c < 32 -> c <> 9 -> c <> 10 -> c <> 13 -> in_quotes 39 [c] m ->
    complaint (triple ++ t) (B "invalid character within block string: " ++ m).
