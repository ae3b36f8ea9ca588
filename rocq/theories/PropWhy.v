(** * PropWhy: property theorem C61 (the literal of an Illegal token says what is wrong).
    Specification: LexSpec.v ([lexing], [stuck]) and Complaint.v ([complaint]). *)
From Verif Require Import Base Utf8 Utf8Proofs Lexer LexerTotal LexCP LexRefine LexSpec LexAgree LexMain Complaint LexWhy PropLex.

(** C61: when the tokens of a text end with an Illegal token, its literal is a complaint about the text from that place on: the character no token starts with, the
    characters found instead of three full stops, the character found where a number needs a digit (or the digit after a leading zero), the control character or the end
    of the text in a string, the first bad escape of a closed string, or that a block string is not closed or has a control character. *)
Theorem C61_illegal_says_why cs : clean cs -> regular_blocks cs ->
  exists ts last s' toks rest, lex_all (utf8s cs) = Ok (ts ++ [last]) s' /\ lexing [] cs toks rest /\ Forall2 (fun t k => tkind t = skind k /\ tlit t = slit k) ts toks /\
    (tkind last = KEOF /\ rest = [] \/ tkind last = KIllegal /\ stuck rest /\ complaint rest (tlit last)).
Proof.
  intros Hc Hr. destruct (lex_main cs Hc Hr) as (ts & last & s' & toks & body & rest & H1 & H2 & H3 & H4 & H5 & _ & _ & H8).
  exists ts, last, s', toks, rest. split; [exact H1|]. split; [exact H2|]. split; [exact H4|]. destruct H5 as [(K & _ & E)|(K & St)]; [left; auto|right]. split; [exact K|]. split; [exact St|].
  rewrite H8. apply (lex_why (fuel_of (utf8s cs)) (utf8s cs) lex_init cs ts last s'); [|exact H1|exact K]. split; [cbn; lia|]. split; [reflexivity|exact Hc].
Qed.
Print Assumptions C61_illegal_says_why.

(** Whatever the block strings look like (control characters and carriage returns in them included): the complaint is about a rest of the text. *)
Lemma ctoken_suffix r ln lp k lit l c r2 ln2 lp2 : clean r -> ctoken r ln lp = CTok k lit l c r2 ln2 lp2 -> exists w, r = w ++ r2.
Proof.
  intros Hc. unfold ctoken. destruct r as [|x t]; [discriminate|]. destruct (is_name_start x).
  { destruct (span is_name_cont t) as [nm r'] eqn:Es. apply span_spec in Es. intros E. assert (r' = r2) by congruence. subst r' t. exists (x :: nm). reflexivity. }
  destruct (is_punct x).
  { destruct (x =? 46)%Z.
    - destruct t as [|y [|z t]]; try discriminate. destruct (_ && _)%bool; [|discriminate]. intros E. assert (t = r2) by (cbn [skipn] in E; congruence). subst t. exists [x; y; z]. reflexivity.
    - intros E. assert (t = r2) by congruence. subst t. exists [x]. reflexivity. }
  destruct (is_digit x || (x =? 45)%Z)%bool.
  { destruct (cnum (x :: t)) as [[[lex fl] r']|] eqn:En; [|discriminate]. apply cnum_sound in En as [En _]. intros E. assert (r' = r2) by congruence. subst r'. exists lex. exact En. }
  destruct (x =? 34)%Z; [|discriminate]. destruct (two_quotes t) eqn:E2.
  - destruct t as [|y [|z t]]; try discriminate. cbn [skipn]. destruct (cblk t) as [[raw r']|] eqn:Eb; [|discriminate]. intros E. assert (r' = r2) by congruence. subst r'.
    destruct (cblk_suffix _ _ _ Eb) as [w ->]; [inversion Hc as [|? ? _ Hc1]; inversion Hc1 as [|? ? _ Hc2]; inversion Hc2; assumption|]. exists (x :: y :: z :: w). reflexivity.
  - destruct (cstr t) as [[v r']|] eqn:Ec; [|discriminate]. destruct (cstr_suffix _ _ _ Ec) as [w ->]. intros E. assert (r' = r2) by congruence. subst r'. exists (x :: w). reflexivity.
Qed.
Lemma clast_suffix f : forall cs ln lp, clean cs -> exists body, cs = body ++ clast f cs ln lp.
Proof.
  induction f as [|f IH]; intros cs ln lp Hc; [exists []; reflexivity|]. cbn [clast]. destruct (skip cs (Norm false) ln lp) as [[r ln1] lp1] eqn:Es.
  destruct (skip_sound _ _ _ _ _ _ _ Es) as (ign & (Ecs & _) & _). pose proof Hc as Hcr. rewrite Ecs in Hcr. apply clean_app_r in Hcr.
  destruct (ctoken r ln1 lp1) as [l c|l c|k lit l c r2 ln2 lp2] eqn:Et; [exists ign; exact Ecs..|].
  destruct (ctoken_suffix _ _ _ _ _ _ _ _ _ _ Hcr Et) as [w Er]. destruct (IH r2 ln2 lp2) as [b Eb]; [rewrite Er in Hcr; apply (clean_app_r _ _ Hcr)|].
  exists (ign ++ w ++ b). rewrite <- !app_assoc, <- Eb, <- Er. exact Ecs.
Qed.
Theorem C61_any_block cs ts last s' : clean cs -> lex_all (utf8s cs) = Ok (ts ++ [last]) s' -> tkind last = KIllegal ->
  exists body rest, cs = body ++ rest /\ complaint rest (tlit last).
Proof.
  intros Hc H1 K. destruct (clast_suffix (fuel_of (utf8s cs)) cs 1 0 Hc) as [body E]. exists body. eexists. split; [exact E|].
  apply (lex_why (fuel_of (utf8s cs)) (utf8s cs) lex_init cs ts last s'); [|exact H1|exact K]. split; [cbn; lia|]. split; [reflexivity|exact Hc].
Qed.
Print Assumptions C61_any_block.

(** the literal of the last token *)
Definition last_literal (cs : list Z) : option bytes := match lex_all (utf8s cs) with Ok ts _ => match rev ts with t :: _ => match tkind t with KIllegal => Some (tlit t) | _ => None end | [] => None end | _ => None end.
Example C61_nonvacuous : let sources := [src "{ a ? }"; src "{ .b }"; src "a(b: 012)"; src "-"; src "1.x"; src "2E+"; src "3e"; src "{ a(b: ""x"; 34%Z :: src "a" ++ [7%Z]; src """a\"; src """a\u12"; src """a\qb"" c"; src """\u12g4"" c"; src """""""ab"""; src """""""a" ++ 1%Z :: src """"""""] in
  Forall (fun cs => clean cs /\ regular_blocks cs) (firstn 14 sources) /\
  map last_literal sources = map Some [B "?"; B "invalid punctuator, expected ""..."" but got: "".b """; B "invalid number, unexpected digit after 0: '1'"; B "invalid number, expected digit but got: '\x00'";
    B "invalid number, expected digit but got: 'x'"; B "invalid number, expected digit but got: '\x00'"; B "invalid number, expected digit but got: '\x00'"; B "invalid character within string: '\x00'"; B "invalid character within string: '\a'";
    B "invalid character within string: '\x00'"; B "invalid character within string: '\x00'"; B "invalid character escape sequence: \q"; B "invalid character escape sequence: \u12g4"; B "unexpected eof, probably unclosed block string"; B "invalid character within block string: '\x01'"].
Proof.
  cbv zeta. split; [|vm_compute; reflexivity]. cbn [firstn]. repeat (apply Forall_cons; [split; [apply cleanb_spec; vm_compute; reflexivity|apply regularb_spec; vm_compute; reflexivity]|]). apply Forall_nil.
Qed.
