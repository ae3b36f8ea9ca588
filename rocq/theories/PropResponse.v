(** * PropResponse: C60 — the JSON of a server response. *)
From Coq Require Import NArith Nnat.
From Verif Require Import Base Utf8 Json Errors PropErrors Response.

(** ** Specification *)
(** the values a value is made of, itself included *)
Inductive within (w : rvalue) : rvalue -> Prop :=
| within_self : within w w
| within_array v x : rkind v = KindArray -> In x (rarray v) -> within w x -> within w v
| within_object v n x : rkind v = KindObject -> In (n, x) (robject v) -> within w x -> within w v.
(** a kind that is one of the seven *)
Definition known_kind (k : Z) : Prop := In k [KindInt; KindFloat; KindString; KindBoolean; KindNull; KindArray; KindObject].
Definition all_known (v : rvalue) : Prop := forall w, within w v -> known_kind (rkind w).
(** strings and field names that stand for themselves between quotation marks *)
Definition all_plain (v : rvalue) : Prop := forall w, within w v -> (rkind w = KindString -> plain (rstr w)) /\ (rkind w = KindObject -> forall n x, In (n, x) (robject w) -> plain n).
Definition finite (x : float64) : Prop := exists neg m e, x = FFin neg m e.
Definition all_finite (v : rvalue) : Prop := forall w, within w v -> rkind w = KindFloat -> finite (rfloat w).
(** the decimal text of a finite float, to five places: no multiple of 0.00001 is nearer to it.  The value of the float is m * 2^e, that of the text n / 10^5. *)
Definition nearest (m : N) (e : Z) (n : Z) : Prop :=
  if (0 <=? e)%Z then n = (Z.of_N m * 2 ^ e * 100000)%Z else (2 * Z.abs (n * 2 ^ (- e) - Z.of_N m * 100000) <= 2 ^ (- e))%Z.
Definition real_text (x : float64) (t : bytes) : Prop :=
  exists neg m e whole places, x = FFin neg m e /\ t = (if neg then B "-" else []) ++ whole ++ B "." ++ places /\
    List.length places = 5 /\ nearest m e (dec_value (whole ++ places)).
(** the JSON value a response value stands for *)
Inductive shows : rvalue -> json -> Prop :=
| shows_int v : rkind v = KindInt -> shows v (JInt (rint v))
| shows_float v t : rkind v = KindFloat -> real_text (rfloat v) t -> shows v (JReal t)
| shows_string v : rkind v = KindString -> shows v (JStr (rstr v))
| shows_boolean v : rkind v = KindBoolean -> shows v (JBool (rbool v))
| shows_null v : rkind v = KindNull -> shows v JNull
| shows_array v js : rkind v = KindArray -> Forall2 shows (rarray v) js -> shows v (JArr js)
| shows_object v js : rkind v = KindObject -> Forall2 (fun f m => fst m = fst f /\ shows (snd f) (snd m)) (robject v) js -> shows v (JObj js).

(** ** Lemmas *)
Section RInd.
  Variable P : rvalue -> Prop.
  Hypothesis H : forall v, (forall x, In x (rarray v) -> P x) -> (forall n x, In (n, x) (robject v) -> P x) -> P v.
  Fixpoint rvalue_nest (v : rvalue) : P v.
  Proof.
    apply H; destruct v as [k i f s b a o]; cbn [rarray robject].
    - induction a as [|y a IH]; intros x Hx; [destruct Hx|]. destruct Hx as [E|Hx]; [rewrite <- E; apply rvalue_nest|apply IH, Hx].
    - induction o as [|[n' y] o IH]; intros n x Hx; [destruct Hx|]. destruct Hx as [E|Hx]; [injection E as _ <-; apply rvalue_nest|apply (IH n), Hx].
  Defined.
End RInd.

(** *** the loops *)
Fixpoint arr_loop (len i : nat) (l : list rvalue) (buf : bytes) : written :=
  match l with
  | [] => (buf, true)
  | av :: l => let '(buf, ok) := marshal_value av buf in
      if negb ok then (buf, false)
      else let buf := if (Z.of_nat i <? Z.of_nat len - 1)%Z then buf ++ B "," else buf in arr_loop len (S i) l buf
  end.
Fixpoint obj_loop (len i : nat) (l : list (bytes * rvalue)) (buf : bytes) : written :=
  match l with
  | [] => (buf, true)
  | (name, val) :: l =>
      let buf := buf ++ [bz 34] in let buf := buf ++ name in let buf := buf ++ [bz 34] in let buf := buf ++ B ":" in
      let '(buf, ok) := marshal_value val buf in
      if negb ok then (buf, false)
      else let buf := if (Z.of_nat i <? Z.of_nat len - 1)%Z then buf ++ B "," else buf in obj_loop len (S i) l buf
  end.
Lemma marshal_value_eq v buf : marshal_value v buf =
  (if (rkind v =? KindInt)%Z then (buf ++ itoa (rint v), true)
   else if (rkind v =? KindFloat)%Z then (buf ++ format_float (rfloat v), true)
   else if (rkind v =? KindString)%Z then (((buf ++ quote) ++ rstr v) ++ quote, true)
   else if (rkind v =? KindBoolean)%Z then (buf ++ if rbool v then B "true" else B "false", true)
   else if (rkind v =? KindNull)%Z then (buf ++ B "null", true)
   else if (rkind v =? KindArray)%Z then
     let '(buf, ok) := arr_loop (List.length (rarray v)) 0 (rarray v) (buf ++ B "[") in if negb ok then (buf, false) else (buf ++ B "]", true)
   else if (rkind v =? KindObject)%Z then
     let '(buf, ok) := obj_loop (List.length (robject v)) 0 (robject v) (buf ++ B "{") in if negb ok then (buf, false) else (buf ++ B "}", true)
   else (buf, false)).
Proof.
  destruct v as [k i f s b a o]. cbn [rkind rint rfloat rstr rbool rarray robject marshal_value].
  destruct (k =? KindInt)%Z; [reflexivity|]. destruct (k =? KindFloat)%Z; [reflexivity|]. destruct (k =? KindString)%Z; [reflexivity|]. destruct (k =? KindBoolean)%Z; [destruct b; reflexivity|].
  destruct (k =? KindNull)%Z; [reflexivity|]. destruct (k =? KindArray)%Z; [|destruct (k =? KindObject)%Z; [|reflexivity]]; cbv zeta.
  - set (len := List.length a). match goal with |- (let '(_, _) := ?F 0 a ?b in _) = _ => set (loop := F); assert (E : forall l j u, loop j l u = arr_loop len j l u) end.
    { induction l as [|x l IH]; intros j u; [reflexivity|]. cbn [arr_loop]. unfold loop at 1. fold loop. destruct (marshal_value x u) as [u' ok]. destruct (negb ok); [reflexivity|]. apply IH. }
    rewrite E. reflexivity.
  - set (len := List.length o). match goal with |- (let '(_, _) := ?F 0 o ?b in _) = _ => set (loop := F); assert (E : forall l j u, loop j l u = obj_loop len j l u) end.
    { induction l as [|[n x] l IH]; intros j u; [reflexivity|]. cbn [obj_loop]. unfold loop at 1. fold loop. cbv zeta. destruct (marshal_value x _) as [u' ok]. destruct (negb ok); [reflexivity|]. apply IH. }
    rewrite E. reflexivity.
Qed.

Definition writes (v : rvalue) (t : bytes) : Prop := forall buf, marshal_value v buf = (buf ++ t, true).
Lemma arr_loop_ok l : forall ts i buf len, Forall2 writes l ts -> (i + List.length l)%nat = len -> arr_loop len i l buf = (buf ++ joinb (B ",") ts, true).
Proof.
  induction l as [|x l IH]; intros ts i buf len H E; inversion H as [|? t ? ts' Hx Hl]; subst; cbn [arr_loop]; [rewrite app_nil_r; reflexivity|].
  rewrite Hx. cbn [negb]. cbn [List.length] in *. destruct l as [|y l]; inversion Hl as [|? t' ? ts'' Hy Hl']; subst.
  - cbn [arr_loop joinb List.length]. replace (Z.of_nat i <? Z.of_nat (i + 1) - 1)%Z with false by lia. reflexivity.
  - replace (Z.of_nat i <? Z.of_nat (i + S (List.length (y :: l))) - 1)%Z with true by (cbn [List.length]; lia). rewrite (IH (t' :: ts'')); [|exact Hl|lia].
    change (joinb (B ",") (t :: t' :: ts'')) with (t ++ B "," ++ joinb (B ",") (t' :: ts'')). rewrite <- !app_assoc. reflexivity.
Qed.
Definition field_text (n t : bytes) : bytes := (quote ++ n ++ quote ++ B ":") ++ t.
Lemma obj_loop_ok l : forall ts i buf len, Forall2 (fun f u => exists t, u = field_text (fst f) t /\ writes (snd f) t) l ts -> (i + List.length l)%nat = len -> obj_loop len i l buf = (buf ++ joinb (B ",") ts, true).
Proof.
  induction l as [|[n x] l IH]; intros ts i buf len H E; inversion H as [|? t ? ts' Hx Hl]; subst; cbn [obj_loop]; [rewrite app_nil_r; reflexivity|].
  destruct Hx as (t0 & -> & Hx). cbn [fst snd] in *. cbv zeta. rewrite Hx. cbn [negb]. cbn [List.length] in *. destruct l as [|y l]; inversion Hl as [|? t' ? ts'' Hy Hl']; subst.
  - cbn [obj_loop joinb List.length]. replace (Z.of_nat i <? Z.of_nat (i + 1) - 1)%Z with false by lia. unfold field_text, quote. rewrite <- !app_assoc. reflexivity.
  - replace (Z.of_nat i <? Z.of_nat (i + S (List.length (y :: l))) - 1)%Z with true by (cbn [List.length]; lia). rewrite (IH (t' :: ts'')); [|exact Hl|lia].
    change (joinb (B ",") (field_text n t0 :: t' :: ts'')) with (field_text n t0 ++ B "," ++ joinb (B ",") (t' :: ts'')). unfold field_text, quote. rewrite <- !app_assoc. reflexivity.
Qed.
Lemma forall2_ex {X Y} (R : X -> Y -> Prop) l : (forall x, In x l -> exists y, R x y) -> exists ys, Forall2 R l ys.
Proof.
  induction l as [|x l IH]; intros H; [exists []; constructor|]. destruct (H x (or_introl eq_refl)) as [y Hy]. destruct IH as [ys Hys]; [intros z Hz; apply H; right; exact Hz|]. exists (y :: ys). constructor; assumption.
Qed.
Lemma known_all_array v x : rkind v = KindArray -> In x (rarray v) -> all_known v -> all_known x.
Proof. intros K I A w W. apply A. eapply within_array; eassumption. Qed.
Lemma known_all_object v n x : rkind v = KindObject -> In (n, x) (robject v) -> all_known v -> all_known x.
Proof. intros K I A w W. apply A. eapply within_object; eassumption. Qed.
Lemma kinds_known k : known_kind k -> (k =? KindInt)%Z = true \/ (k =? KindFloat)%Z = true \/ (k =? KindString)%Z = true \/ (k =? KindBoolean)%Z = true \/ (k =? KindNull)%Z = true \/ (k =? KindArray)%Z = true \/ (k =? KindObject)%Z = true.
Proof. unfold known_kind. cbn [In]. rewrite !Z.eqb_eq. intuition congruence. Qed.

(** *** what is written *)
Definition body_of (v : rvalue) (t : bytes) : Prop :=
  (rkind v = KindInt /\ t = itoa (rint v)) \/ (rkind v = KindFloat /\ t = format_float (rfloat v)) \/ (rkind v = KindString /\ t = quote ++ rstr v ++ quote) \/
  (rkind v = KindBoolean /\ t = if rbool v then B "true" else B "false") \/ (rkind v = KindNull /\ t = B "null") \/
  (rkind v = KindArray /\ exists ts, Forall2 writes (rarray v) ts /\ t = B "[" ++ joinb (B ",") ts ++ B "]") \/
  (rkind v = KindObject /\ exists us, Forall2 (fun f u => exists t, u = field_text (fst f) t /\ writes (snd f) t) (robject v) us /\ t = B "{" ++ joinb (B ",") us ++ B "}").
Lemma body_writes v t : body_of v t -> writes v t.
Proof.
  intros H buf. rewrite marshal_value_eq. destruct H as [(-> & ->)|[(-> & ->)|[(-> & ->)|[(-> & ->)|[(-> & ->)|[(-> & ts & F & ->)|(-> & us & F & ->)]]]]]]; try reflexivity.
  - cbn [Z.eqb KindString KindInt KindFloat]. change (2 =? 0)%Z with false. change (2 =? 1)%Z with false. change (2 =? 2)%Z with true. cbn iota. rewrite <- !app_assoc. reflexivity.
  - change (KindArray =? KindInt)%Z with false. change (KindArray =? KindFloat)%Z with false. change (KindArray =? KindString)%Z with false. change (KindArray =? KindBoolean)%Z with false. change (KindArray =? KindNull)%Z with false. change (KindArray =? KindArray)%Z with true. cbn iota.
    rewrite (arr_loop_ok _ ts) by (try exact F; reflexivity). cbn [negb]. rewrite <- !app_assoc. reflexivity.
  - change (KindObject =? KindInt)%Z with false. change (KindObject =? KindFloat)%Z with false. change (KindObject =? KindString)%Z with false. change (KindObject =? KindBoolean)%Z with false. change (KindObject =? KindNull)%Z with false. change (KindObject =? KindArray)%Z with false. change (KindObject =? KindObject)%Z with true. cbn iota.
    rewrite (obj_loop_ok _ us) by (try exact F; reflexivity). cbn [negb]. rewrite <- !app_assoc. reflexivity.
Qed.
Lemma known_body v : all_known v -> exists t, body_of v t.
Proof.
  induction v as [v IHa IHo] using rvalue_nest. intros A. pose proof (A v (within_self v)) as K. unfold body_of. cbn [known_kind In] in K. destruct K as [K|[K|[K|[K|[K|[K|[K|[]]]]]]]]; symmetry in K.
  - eexists. left. split; [exact K|reflexivity].
  - eexists. right; left. split; [exact K|reflexivity].
  - eexists. right; right; left. split; [exact K|reflexivity].
  - eexists. do 3 right; left. split; [exact K|reflexivity].
  - eexists. do 4 right; left. split; [exact K|reflexivity].
  - destruct (forall2_ex writes (rarray v)) as [ts F].
    { intros x Hx. destruct (IHa x Hx (known_all_array _ _ K Hx A)) as [t Ht]. exists t. apply body_writes, Ht. }
    eexists. do 5 right; left. split; [exact K|]. exists ts. split; [exact F|reflexivity].
  - destruct (forall2_ex (fun f u => exists t, u = field_text (fst f) t /\ writes (snd f) t) (robject v)) as [us F].
    { intros [n x] Hx. destruct (IHo n x Hx (known_all_object _ _ _ K Hx A)) as [t Ht]. exists (field_text n t), t. split; [reflexivity|apply body_writes, Ht]. }
    eexists. do 6 right. split; [exact K|]. exists us. split; [exact F|reflexivity].
Qed.
Lemma known_writes v : all_known v -> exists t, writes v t.
Proof. intros A. destruct (known_body v A) as [t H]. exists t. apply body_writes, H. Qed.

(** *** errors *)
Lemma arr_loop_false l x : In x l -> (forall buf, snd (marshal_value x buf) = false) -> forall len i buf, snd (arr_loop len i l buf) = false.
Proof.
  induction l as [|y l IH]; intros I H len i buf; [destruct I|]. cbn [arr_loop]. destruct (marshal_value y buf) as [u ok] eqn:E. destruct ok; [|reflexivity]. cbn [negb].
  destruct I as [->|I]; [specialize (H buf); rewrite E in H; discriminate|]. apply IH; assumption.
Qed.
Lemma obj_loop_false l n x : In (n, x) l -> (forall buf, snd (marshal_value x buf) = false) -> forall len i buf, snd (obj_loop len i l buf) = false.
Proof.
  induction l as [|[m y] l IH]; intros I H len i buf; [destruct I|]. cbn [obj_loop]. cbv zeta. destruct (marshal_value y _) as [u ok] eqn:E. destruct ok; [|reflexivity]. cbn [negb].
  destruct I as [I|I]; [injection I as -> ->; specialize (H ((((buf ++ [bz 34]) ++ n) ++ [bz 34]) ++ B ":")); rewrite E in H; discriminate|]. apply IH; assumption.
Qed.
Lemma unknown_false w v : within w v -> ~ known_kind (rkind w) -> forall buf, snd (marshal_value v buf) = false.
Proof.
  intros W U. induction W as [|v x K I W IH|v n x K I W IH]; intros buf; rewrite marshal_value_eq.
  - unfold known_kind in U. cbn [In] in U. repeat match goal with |- context [(?a =? ?b)%Z] => destruct (Z.eqb_spec a b) as [|_]; [exfalso; apply U; intuition congruence|] end. reflexivity.
  - rewrite K. change (KindArray =? KindInt)%Z with false. change (KindArray =? KindFloat)%Z with false. change (KindArray =? KindString)%Z with false. change (KindArray =? KindBoolean)%Z with false. change (KindArray =? KindNull)%Z with false. change (KindArray =? KindArray)%Z with true. cbn iota.
    pose proof (arr_loop_false _ x I IH (List.length (rarray v)) 0 (buf ++ B "[")) as L. destruct (arr_loop _ _ _ _) as [u ok]. cbn [snd] in L. rewrite L. reflexivity.
  - rewrite K. change (KindObject =? KindInt)%Z with false. change (KindObject =? KindFloat)%Z with false. change (KindObject =? KindString)%Z with false. change (KindObject =? KindBoolean)%Z with false. change (KindObject =? KindNull)%Z with false. change (KindObject =? KindArray)%Z with false. change (KindObject =? KindObject)%Z with true. cbn iota.
    pose proof (obj_loop_false _ n x I IH (List.length (robject v)) 0 (buf ++ B "{")) as L. destruct (obj_loop _ _ _ _) as [u ok]. cbn [snd] in L. rewrite L. reflexivity.
Qed.
Lemma known_dec v : all_known v \/ exists w, within w v /\ ~ known_kind (rkind w).
Proof.
  induction v as [v IHa IHo] using rvalue_nest.
  destruct (in_dec Z.eq_dec (rkind v) [KindInt; KindFloat; KindString; KindBoolean; KindNull; KindArray; KindObject]) as [K|K]; [|right; exists v; split; [constructor|exact K]].
  assert (Xa : rkind v = KindArray -> (forall x, In x (rarray v) -> all_known x) \/ exists x w, In x (rarray v) /\ within w x /\ ~ known_kind (rkind w)).
  { intros _. revert IHa. generalize (rarray v). clear. induction l as [|x l IH]; intros H; [left; intros x []|]. destruct (H x (or_introl eq_refl)) as [A|(w & W & U)]; [|right; exists x, w; split; [left; reflexivity|auto]].
    destruct IH as [A'|(y & w & I & W)]; [intros y Hy; apply H; right; exact Hy| |]; [left; intros y [<-|Hy]; auto|right; exists y, w; split; [right; exact I|exact W]]. }
  assert (Xo : rkind v = KindObject -> (forall n x, In (n, x) (robject v) -> all_known x) \/ exists n x w, In (n, x) (robject v) /\ within w x /\ ~ known_kind (rkind w)).
  { intros _. revert IHo. generalize (robject v). clear. induction l as [|[n x] l IH]; intros H; [left; intros ? x []|]. destruct (H n x (or_introl eq_refl)) as [A|(w & W & U)]; [|right; exists n, x, w; split; [left; reflexivity|auto]].
    destruct IH as [A'|(m & y & w & I & W)]; [intros m y Hy; apply (H m); right; exact Hy| |]; [left; intros m y [E|Hy]; [injection E as <- <-; exact A|eauto]|right; exists m, y, w; split; [right; exact I|exact W]]. }
  destruct (Z.eq_dec (rkind v) KindArray) as [Ea|Ea]; [destruct (Xa Ea) as [Ha|(x & w & I & W & U)]; [|right; exists w; split; [eapply within_array; eassumption|exact U]]|];
  [|destruct (Z.eq_dec (rkind v) KindObject) as [Eo|Eo]; [destruct (Xo Eo) as [Ho|(n & x & w & I & W & U)]; [|right; exists w; split; [eapply within_object; eassumption|exact U]]|]]; left; intros w W.
  - inversion W as [|? x _ I Wx|? n x Kx I Wx]; subst; [exact K|exact (Ha x I w Wx)|rewrite Ea in Kx; discriminate].
  - inversion W as [|? x Kx I Wx|? n x _ I Wx]; subst; [exact K|congruence|exact (Ho n x I w Wx)].
  - inversion W as [|? x Kx I Wx|? n x Kx I Wx]; subst; [exact K|congruence|congruence].
Qed.

(** *** floats *)
Definition digits (ds : bytes) : Prop := Forall (fun d => (48 <= zb d <= 57)%Z) ds.
Lemma span_dot ds r : digits ds -> span_digits (ds ++ B "." ++ r) = (ds, B "." ++ r).
Proof. intros F. induction F as [|d ds H _ IH]; [reflexivity|]. cbn. unfold is_digit. replace ((48 <=? zb d) && (zb d <=? 57))%Z with true by lia. cbn in IH. rewrite IH. reflexivity. Qed.
Lemma digit_at_char n p : (48 <= zb (digit_at n p) <= 57)%Z /\ (zb (digit_at n p) - 48 = Z.of_N ((n / p) mod 10))%Z.
Proof. unfold digit_at. assert (H : ((n / p) mod 10 < 10)%N) by (apply N.mod_lt; lia). revert H. generalize ((n / p) mod 10)%N. intros d H. rewrite (digit_char _ H). lia. Qed.
Lemma places_digits n ps : digits (map (digit_at n) ps).
Proof. apply Forall_map, Forall_forall. intros p _. apply digit_at_char. Qed.
Lemma number_real (neg : bool) ds ps r : digits ds -> plain_int ds = true -> digits ps -> ps <> [] -> stop r ->
  number (((if neg then B "-" else []) ++ ds ++ B "." ++ ps) ++ r) = Some (JReal ((if neg then B "-" else []) ++ ds ++ B "." ++ ps), r).
Proof.
  intros D P F Hn S. assert (E : number (((if neg then B "-" else []) ++ ds ++ B "." ++ ps) ++ r) = let '(neg, p) := (neg, ds ++ B "." ++ ps ++ r) in let '(ds, r) := span_digits p in
    if plain_int ds then match fraction r with None => None | Some (f, r) => match exponent r with None => None | Some (e, r) => match f ++ e with
      | [] => Some (JInt (if neg then - dec_value ds else dec_value ds)%Z, r) | t => Some (JReal ((if neg then B "-" else []) ++ ds ++ t), r) end end end else None).
  { unfold number. destruct neg; [cbn [app]; rewrite <- !app_assoc; reflexivity|]. destruct ds as [|d ds]; [discriminate|]. inversion D; subst. cbn [app]. replace (zb d =? 45)%Z with false by lia. rewrite <- !app_assoc. reflexivity. }
  rewrite E, span_dot by exact D. rewrite P. change (B "." ++ ps ++ r) with (bz 46 :: ps ++ r). cbn [fraction]. change (zb (bz 46) =? 46)%Z with true. cbn iota. rewrite span_all by assumption.
  destruct ps as [|p ps]; [congruence|]. destruct (stop_head r S) as (c & r' & -> & H). cbn [exponent]. replace ((zb c =? 101) || (zb c =? 69))%Z with false by lia. cbn [app]. rewrite app_nil_r. reflexivity.
Qed.
Lemma horner_app a b x : horner (a ++ b) x = horner b (horner a x). Proof. unfold horner. apply fold_left_app. Qed.
Lemma dec_five n w : dec_value w = Z.of_N (n / 100000) -> dec_value (w ++ map (digit_at n) [10000; 1000; 100; 10; 1]%N) = Z.of_N n.
Proof.
  intros W. change (dec_value ?l) with (horner l 0) in *. rewrite horner_app, W. unfold horner. cbn [map fold_left].
  rewrite !(proj2 (digit_at_char _ _)). rewrite N.div_1_r.
  assert (E : (n = 100000 * (n / 100000) + 10000 * ((n / 10000) mod 10) + 1000 * ((n / 1000) mod 10) + 100 * ((n / 100) mod 10) + 10 * ((n / 10) mod 10) + n mod 10)%N).
  { pose proof (N.div_mod n 10 ltac:(lia)) as E0. pose proof (N.div_mod (n / 10) 10 ltac:(lia)) as E1. rewrite N.div_div in E1 by lia. pose proof (N.div_mod (n / 100) 10 ltac:(lia)) as E2. rewrite N.div_div in E2 by lia.
    pose proof (N.div_mod (n / 1000) 10 ltac:(lia)) as E3. rewrite N.div_div in E3 by lia. pose proof (N.div_mod (n / 10000) 10 ltac:(lia)) as E4. rewrite N.div_div in E4 by lia.
    change (10 * 10)%N with 100%N in *. change (100 * 10)%N with 1000%N in *. change (1000 * 10)%N with 10000%N in *. change (10000 * 10)%N with 100000%N in *. lia. }
  revert E. generalize (n / 100000)%N ((n / 10000) mod 10)%N ((n / 1000) mod 10)%N ((n / 100) mod 10)%N ((n / 10) mod 10)%N (n mod 10)%N. lia.
Qed.
Lemma scaled_nearest m e : nearest m e (Z.of_N (scaled m e)).
Proof.
  unfold nearest, scaled. destruct (Z.leb_spec 0 e) as [H|H].
  - rewrite !N2Z.inj_mul, N2Z.inj_pow, Z2N.id by lia. reflexivity.
  - set (d := (2 ^ Z.to_N (- e))%N). assert (D : (2 ^ (- e) = Z.of_N d)%Z) by (unfold d; rewrite N2Z.inj_pow, Z2N.id by lia; reflexivity). rewrite D.
    assert (Hd : (0 < d)%N) by (unfold d; apply N.neq_0_lt_0, N.pow_nonzero; lia). set (p := (m * 100000)%N). assert (Ep : (Z.of_N m * 100000 = Z.of_N p)%Z) by (unfold p; lia). rewrite Ep.
    pose proof (N.div_mod p d ltac:(lia)) as E. pose proof (N.mod_lt p d ltac:(lia)) as L. set (q := (p / d)%N) in *. set (r := (p mod d)%N) in *. clearbody q r p d.
    destruct ((d <? 2 * r)%N || (d =? 2 * r)%N && N.odd q) eqn:C.
    + assert (d <= 2 * r)%N by (rewrite orb_true_iff, andb_true_iff, N.ltb_lt, N.eqb_eq in C; lia). subst p. nia.
    + assert (2 * r <= d)%N by (rewrite orb_false_iff, N.ltb_ge in C; lia). subst p. nia.
Qed.
Lemma number_value c t r fuel : (zb c = 45 \/ 48 <= zb c <= 57)%Z -> value (S fuel) ((c :: t) ++ r) = number ((c :: t) ++ r).
Proof.
  intros Hc. cbn [app]. cbn [value]. rewrite ws_head by (apply not_ws; lia).
  replace (zb c =? 34)%Z with false by lia. replace (zb c =? 91)%Z with false by lia. replace (zb c =? 123)%Z with false by lia. replace (zb c =? 110)%Z with false by lia. replace (zb c =? 116)%Z with false by lia. replace (zb c =? 102)%Z with false by lia. reflexivity.
Qed.
Lemma float_head neg m e : exists c t, format_float (FFin neg m e) = c :: t /\ (zb c = 45 \/ 48 <= zb c <= 57)%Z.
Proof.
  cbn [format_float]. destruct neg; [exists (bz 45); eexists; split; [reflexivity|left; reflexivity]|]. destruct (itoaN_spec (scaled m e / 100000)) as (_ & F & _ & d & ds & E). rewrite E in *. inversion F; subst. exists d; eexists; split; [reflexivity|right; assumption].
Qed.
Lemma elem_float neg m e : elem (JReal (format_float (FFin neg m e))) (format_float (FFin neg m e)).
Proof.
  intros fuel r Hf S. destruct (float_head neg m e) as (c & t & E & Hc). destruct fuel as [|fuel]; [rewrite E in Hf; cbn in Hf; lia|]. rewrite E, number_value by exact Hc. rewrite <- E. cbn [format_float]. destruct (itoaN_spec (scaled m e / 100000)) as (_ & F & P & _).
  apply number_real; [exact F|exact P|apply places_digits|discriminate|exact S].
Qed.
Lemma format_real neg m e : real_text (FFin neg m e) (format_float (FFin neg m e)).
Proof.
  exists neg, m, e, (itoaN (scaled m e / 100000)), (map (digit_at (scaled m e)) [10000; 1000; 100; 10; 1]%N). split; [reflexivity|]. split; [reflexivity|]. split; [reflexivity|]. rewrite dec_five by apply itoaN_spec. apply scaled_nearest.
Qed.

(** *** texts that are no value *)
Definition fails (t : bytes) : Prop := forall fuel r, List.length t <= fuel -> stop r -> value fuel (t ++ r) = None.
Lemma fails_nan : fails (B "NaN").
Proof. intros [|fuel] r Hf S; [cbn in Hf; lia|]. reflexivity. Qed.
Lemma fails_pinf : fails (B "+Inf").
Proof. intros [|fuel] r Hf S; [cbn in Hf; lia|]. reflexivity. Qed.
Lemma fails_ninf : fails (B "-Inf").
Proof. intros [|fuel] r Hf S; [cbn in Hf; lia|]. reflexivity. Qed.
Lemma float_cases x : finite x \/ fails (format_float x).
Proof. destruct x as [|[]|neg m e]; [right; apply fails_nan|right; apply fails_ninf|right; apply fails_pinf|left; exists neg, m, e; reflexivity]. Qed.

(** first bytes *)
Definition start (t : bytes) : Prop := exists c u, t = c :: u /\ zb c <> 93%Z /\ zb c <> 125%Z /\ (33 <= zb c)%Z.
Lemma start_lit (s : string) : match B s with c :: _ => (negb (zb c =? 93) && negb (zb c =? 125) && (33 <=? zb c))%Z | [] => false end = true -> forall t, start (B s ++ t).
Proof. destruct (B s) as [|c u]; [discriminate|]. intros H t. exists c, (u ++ t). split; [reflexivity|]. lia. Qed.
Lemma start_digits c u : (zb c = 45 \/ 48 <= zb c <= 57)%Z -> start (c :: u).
Proof. intros H. exists c, u. split; [reflexivity|]. lia. Qed.
Lemma writes_unique v t u : writes v t -> writes v u -> t = u.
Proof. intros H1 H2. specialize (H1 []). specialize (H2 []). cbn [app] in *. congruence. Qed.
Lemma body_start v t : body_of v t -> start t.
Proof.
  intros [(_ & ->)|[(_ & ->)|[(_ & ->)|[(_ & ->)|[(_ & ->)|[(_ & ts & _ & ->)|(_ & us & _ & ->)]]]]]].
  - unfold itoa. destruct (rint v <? 0)%Z; [apply start_lit; reflexivity|]. destruct (itoaN_spec (Z.to_N (rint v))) as (_ & F & _ & d & ds & E). rewrite E in *. inversion F; subst. apply start_digits. auto.
  - destruct (rfloat v) as [|[]|neg m e].
    + change (format_float FNaN) with (B "NaN" ++ []). apply start_lit. reflexivity.
    + change (format_float (FInf true)) with (B "-Inf" ++ []). apply start_lit. reflexivity.
    + change (format_float (FInf false)) with (B "+Inf" ++ []). apply start_lit. reflexivity.
    + destruct (float_head neg m e) as (c & u & -> & H). apply start_digits, H.
  - exists (bz 34), (rstr v ++ quote). split; [reflexivity|]. cbv. repeat split; discriminate.
  - destruct (rbool v); [change (B "true") with (B "true" ++ [])|change (B "false") with (B "false" ++ [])]; apply start_lit; reflexivity.
  - change (B "null") with (B "null" ++ []). apply start_lit. reflexivity.
  - apply start_lit. reflexivity.
  - apply start_lit. reflexivity.
Qed.
Lemma elem_lit_null : elem JNull (B "null"). Proof. intros [|fuel] r Hf S; [cbn in Hf; lia|]. reflexivity. Qed.
Lemma elem_lit_bool b : elem (JBool b) (if b then B "true" else B "false"). Proof. intros [|fuel] r Hf S; [destruct b; cbn in Hf; lia|]. destruct b; reflexivity. Qed.
Lemma elem_arr0 : elem (JArr []) (B "[" ++ joinb (B ",") [] ++ B "]"). Proof. intros [|fuel] r Hf S; [cbn in Hf; lia|]. reflexivity. Qed.
Lemma elem_obj0 : elem (JObj []) (B "{" ++ joinb (B ",") [] ++ B "}"). Proof. intros [|fuel] r Hf S; [cbn in Hf; lia|]. reflexivity. Qed.
Lemma members_spec ms : forall us acc fuel r, Forall2 (fun m u => plain (fst m) /\ exists t, u = field_text (fst m) t /\ elem (snd m) t) ms us -> ms <> [] -> List.length (joinb (B ",") us) < fuel ->
  members fuel acc (joinb (B ",") us ++ B "}" ++ r) = Some (JObj (acc ++ ms), r).
Proof.
  induction ms as [|[k j] ms IH]; intros us acc fuel r H Hn Hf; [congruence|]. inversion H as [|? u ? us' (Pk & t & -> & Ht) Hus]; subst. cbn [fst snd] in *. destruct fuel as [|fuel]; [lia|].
  destruct us' as [|u' us'].
  - inversion Hus; subst. cbn [joinb] in *. unfold field_text in *. rewrite app_length in Hf. rewrite <- app_assoc. apply member_last; [exact Pk|exact Ht|lia].
  - destruct ms as [|m' ms]; [inversion Hus|]. change (joinb (B ",") (field_text k t :: u' :: us')) with (field_text k t ++ B "," ++ joinb (B ",") (u' :: us')) in *. unfold field_text at 1 in Hf. rewrite !app_length in Hf. change (List.length (B ",")) with 1 in Hf. 
    assert (E : (field_text k t ++ B "," ++ joinb (B ",") (u' :: us')) ++ B "}" ++ r = (quote ++ k ++ quote ++ B ":") ++ t ++ B "," ++ joinb (B ",") (u' :: us') ++ B "}" ++ r) by (unfold field_text; rewrite <- !app_assoc; reflexivity).
    rewrite E, (member_next k j t) by (try exact Pk; try exact Ht; lia). rewrite IH; [rewrite <- app_assoc; reflexivity|exact Hus|discriminate|lia].
Qed.
Lemma elem_obj ms us : Forall2 (fun m u => plain (fst m) /\ exists t, u = field_text (fst m) t /\ elem (snd m) t) ms us -> elem (JObj ms) (B "{" ++ joinb (B ",") us ++ B "}").
Proof.
  intros H. destruct ms as [|m ms]; [inversion H; subst; apply elem_obj0|]. intros fuel r Hf S. rewrite !app_length in Hf. change (List.length (B "{")) with 1 in Hf. change (List.length (B "}")) with 1 in Hf. destruct fuel as [|fuel]; [lia|].
  rewrite <- !app_assoc. assert (X : exists w, joinb (B ",") us ++ B "}" ++ r = quote ++ w).
  { inversion H as [|? u ? us' (_ & t & -> & _) _]; subst. unfold field_text, quote at 1. cbn [joinb]. destruct us'; eexists; reflexivity. }
  destruct X as (w & E). rewrite E, object_text, <- E. apply (members_spec (m :: ms) us []); [exact H|discriminate|lia].
Qed.
Lemma shows_elem v : forall t, body_of v t -> all_known v -> all_plain v -> all_finite v -> exists j, shows v j /\ elem j t.
Proof.
  induction v as [v IHa IHo] using rvalue_nest. intros t Hb A P Fi. destruct (P v (within_self v)) as [Ps Pn].
  destruct Hb as [(K & ->)|[(K & ->)|[(K & ->)|[(K & ->)|[(K & ->)|[(K & ts & F & ->)|(K & us & F & ->)]]]]]].
  - exists (JInt (rint v)). split; [constructor; exact K|apply elem_int].
  - destruct (Fi v (within_self v) K) as (neg & m & e & E). exists (JReal (format_float (rfloat v))). rewrite E. split; [apply shows_float; [exact K|rewrite E; apply format_real]|apply elem_float].
  - exists (JStr (rstr v)). split; [constructor; exact K|apply elem_str, Ps, K].
  - exists (JBool (rbool v)). split; [constructor; exact K|apply elem_lit_bool].
  - exists JNull. split; [constructor; exact K|apply elem_lit_null].
  - assert (X : exists js, Forall2 shows (rarray v) js /\ Forall2 elem js ts /\ Forall start ts).
    { assert (Sub : forall x, In x (rarray v) -> forall t, writes x t -> exists j, shows x j /\ elem j t /\ start t).
      { intros x Hx u Wu. assert (Ax := known_all_array _ _ K Hx A). destruct (known_body x Ax) as [u' Hu]. rewrite (writes_unique _ _ _ Wu (body_writes _ _ Hu)). destruct (IHa x Hx u' Hu Ax) as (j & H1 & H2); [intros w W; apply P; eapply within_array; eassumption|intros w W; apply Fi; eapply within_array; eassumption|].
        exists j. split; [exact H1|]. split; [exact H2|apply (body_start _ _ Hu)]. }
      clear - F Sub. induction F as [|x t l ts Hx Hl IH]; [exists []; split; [constructor|split; constructor]|]. destruct (Sub x (or_introl eq_refl) t Hx) as (j & H1 & H2 & H3). destruct IH as (js & G1 & G2 & G3); [intros y Hy; apply Sub; right; exact Hy|]. exists (j :: js). split; [constructor; assumption|split; constructor; assumption]. }
    destruct X as (js & X1 & X2 & X3). exists (JArr js). split; [apply shows_array; assumption|]. destruct js as [|j js]; [inversion X2; subst; apply elem_arr0|]. apply elem_arr; [exact X2|discriminate|].
    intros t c u It ->. rewrite Forall_forall in X3. destruct (X3 _ It) as (c' & u' & E & Hc). injection E as <- <-. tauto.
  - assert (X : exists js, Forall2 (fun f m => fst m = fst f /\ shows (snd f) (snd m)) (robject v) js /\ Forall2 (fun m u => plain (fst m) /\ exists t, u = field_text (fst m) t /\ elem (snd m) t) js us).
    { assert (Sub : forall n x, In (n, x) (robject v) -> forall t, writes x t -> plain n /\ exists j, shows x j /\ elem j t).
      { intros n x Hx u Wu. split; [apply (Pn K n x Hx)|]. assert (Ax := known_all_object _ _ _ K Hx A). destruct (known_body x Ax) as [u' Hu]. rewrite (writes_unique _ _ _ Wu (body_writes _ _ Hu)). apply (IHo n x Hx u' Hu Ax); [intros w W; apply P; eapply within_object; eassumption|intros w W; apply Fi; eapply within_object; eassumption]. }
      clear - F Sub. induction F as [|[n x] u l us (t & -> & Hx) Hl IH]; [exists []; split; constructor|]. cbn [fst snd] in *. destruct (Sub n x (or_introl eq_refl) t Hx) as (Hp & j & H1 & H2). destruct IH as (js & G1 & G2); [intros m y Hy; apply Sub; right; exact Hy|].
      exists ((n, j) :: js). split; constructor; try assumption; [split; [reflexivity|exact H1]|split; [exact Hp|exists t; split; [reflexivity|exact H2]]]. }
    destruct X as (js & X1 & X2). exists (JObj js). split; [apply shows_object; assumption|apply elem_obj, X2].
Qed.
Lemma joinb_two sep a b l : joinb sep (a :: b :: l) = a ++ sep ++ joinb sep (b :: l). Proof. reflexivity. Qed.
Lemma items_fails ts : forall acc fuel r, Forall (fun t => (exists j, elem j t) \/ fails t) ts -> Exists fails ts -> List.length (joinb (B ",") ts) < fuel -> items fuel acc (joinb (B ",") ts ++ B "]" ++ r) = None.
Proof.
  induction ts as [|t ts IH]; intros acc fuel r A X Hf; [inversion X|]. destruct fuel as [|fuel]; [lia|]. inversion A as [|? ? H1 H2]; subst. cbn [items].
  assert (N : exists w, joinb (B ",") (t :: ts) ++ B "]" ++ r = t ++ w /\ stop w /\ List.length t <= fuel).
  { destruct ts as [|t' ts]; [exists (B "]" ++ r); split; [reflexivity|split; [apply stop_square|cbn [joinb] in Hf; lia]]|]. rewrite joinb_two, !app_length in *. rewrite <- !app_assoc. eexists. split; [reflexivity|split; [apply stop_comma|lia]]. }
  destruct N as (w & E & Sw & L). apply Exists_cons in X. destruct X as [X|X]; [rewrite E, X by assumption; reflexivity|]. destruct H1 as [[j H1]|H1]; [|rewrite E, H1 by assumption; reflexivity].
  destruct ts as [|t' ts]; [inversion X|]. rewrite joinb_two, !app_length in Hf. change (List.length (B ",")) with 1 in Hf. rewrite joinb_two, <- !app_assoc. rewrite H1 by (try exact L; apply stop_comma).
  change (B "," ++ joinb (B ",") (t' :: ts) ++ B "]" ++ r) with (bz 44 :: joinb (B ",") (t' :: ts) ++ B "]" ++ r). rewrite ws_head by reflexivity. change (zb (bz 44) =? 44)%Z with true. cbn iota. apply IH; [exact H2|exact X|lia].
Qed.
Lemma arr_fails ts : Forall (fun t => (exists j, elem j t) \/ fails t) ts -> Forall start ts -> Exists fails ts -> fails (B "[" ++ joinb (B ",") ts ++ B "]").
Proof.
  intros H St X fuel r Hf S. rewrite !app_length in Hf. change (List.length (B "[")) with 1 in Hf. change (List.length (B "]")) with 1 in Hf. destruct fuel as [|fuel]; [lia|]. rewrite <- !app_assoc. change (B "[" ++ joinb (B ",") ts ++ B "]" ++ r) with (bz 91 :: joinb (B ",") ts ++ B "]" ++ r). cbn [value].
  rewrite ws_head by reflexivity. change (zb (bz 91) =? 34)%Z with false. change (zb (bz 91) =? 91)%Z with true. cbn iota.
  assert (Y : exists c u, joinb (B ",") ts ++ B "]" ++ r = c :: u /\ zb c <> 93%Z /\ (33 <= zb c)%Z).
  { destruct St as [|t ts (c & u & -> & H1 & _ & H2) _]; [inversion X|]. cbn [joinb]. destruct ts; eexists c, _; (split; [reflexivity|auto]). }
  destruct Y as (c & u & E & H1 & H2). rewrite E at 1. rewrite ws_head by (apply not_ws; exact H2). replace (zb c =? 93)%Z with false by lia. apply items_fails; [exact H|exact X|lia].
Qed.
Definition field_good (u : bytes) : Prop := exists k t, plain k /\ u = field_text k t /\ exists j, elem j t.
Definition field_fails (u : bytes) : Prop := exists k t, plain k /\ u = field_text k t /\ fails t.
Lemma member_fails k t w acc fuel : plain k -> fails t -> List.length t <= fuel -> stop w -> members (S fuel) acc (field_text k t ++ w) = None.
Proof.
  intros Pk Ht Hf Sw. unfold field_text. cbn [members]. rewrite <- !app_assoc. unfold quote at 1. cbn [app]. rewrite ws_head by reflexivity. change (bz 34 :: k ++ quote ++ B ":" ++ t ++ w) with (quote ++ k ++ quote ++ B ":" ++ t ++ w). rewrite str_lit by exact Pk.
  change (B ":" ++ t ++ w) with (bz 58 :: t ++ w). rewrite ws_head by reflexivity. change (zb (bz 58) =? 58)%Z with true. cbn iota. rewrite Ht by assumption. reflexivity.
Qed.
Lemma members_fails us : forall acc fuel r, Forall (fun u => field_good u \/ field_fails u) us -> Exists field_fails us -> List.length (joinb (B ",") us) < fuel -> members fuel acc (joinb (B ",") us ++ B "}" ++ r) = None.
Proof.
  induction us as [|u us IH]; intros acc fuel r A X Hf; [inversion X|]. destruct fuel as [|fuel]; [lia|]. inversion A as [|? ? H1 H2]; subst.
  assert (N : exists w, joinb (B ",") (u :: us) ++ B "}" ++ r = u ++ w /\ stop w /\ List.length u <= fuel).
  { destruct us as [|t' ts]; [exists (B "}" ++ r); split; [reflexivity|split; [apply stop_brace|cbn [joinb] in Hf; lia]]|]. rewrite joinb_two, !app_length in *. rewrite <- !app_assoc. eexists. split; [reflexivity|split; [apply stop_comma|lia]]. }
  destruct N as (w & E & Sw & L).
  assert (F1 : field_fails u -> members (S fuel) acc (joinb (B ",") (u :: us) ++ B "}" ++ r) = None).
  { intros (k & t & Pk & -> & Ht). rewrite E. apply member_fails; try assumption. unfold field_text in L. rewrite app_length in L. lia. }
  apply Exists_cons in X. destruct X as [X|X]; [apply F1, X|]. destruct H1 as [(k & t & Pk & -> & j & H1)|H1]; [|apply F1, H1].
  destruct us as [|u' us]; [inversion X|]. rewrite joinb_two in Hf |- *. unfold field_text in L. rewrite !app_length in Hf. rewrite app_length in L. change (List.length (B ",")) with 1 in Hf.
  assert (E1 : (field_text k t ++ B "," ++ joinb (B ",") (u' :: us)) ++ B "}" ++ r = (quote ++ k ++ quote ++ B ":") ++ t ++ B "," ++ joinb (B ",") (u' :: us) ++ B "}" ++ r) by (unfold field_text; rewrite <- !app_assoc; reflexivity).
  rewrite E1, (member_next k j t) by (try exact Pk; try exact H1; lia). apply IH; [exact H2|exact X|lia].
Qed.
Lemma obj_fails us : Forall (fun u => field_good u \/ field_fails u) us -> Exists field_fails us -> fails (B "{" ++ joinb (B ",") us ++ B "}").
Proof.
  intros H X fuel r Hf S. rewrite !app_length in Hf. change (List.length (B "{")) with 1 in Hf. change (List.length (B "}")) with 1 in Hf. destruct fuel as [|fuel]; [lia|].
  rewrite <- !app_assoc. assert (Y : exists w, joinb (B ",") us ++ B "}" ++ r = quote ++ w).
  { destruct H as [|u us H _]; [inversion X|]. assert (Z : exists k t, u = field_text k t) by (destruct H as [(k & t & _ & E & _)|(k & t & _ & E & _)]; eauto). destruct Z as (k & t & ->). unfold field_text, quote at 1. cbn [joinb]. destruct us; eexists; reflexivity. }
  destruct Y as (w & E). rewrite E, object_text, <- E. apply members_fails; [exact H|exact X|lia].
Qed.
Lemma forall2_split {X Y} (R : X -> Y -> Prop) (A : X -> Prop) (F : Y -> Prop) l ys : Forall2 R l ys -> (forall x y, In x l -> R x y -> A x \/ F y) -> (forall x, In x l -> A x) \/ Exists F ys.
Proof.
  intros H G. induction H as [|x y l ys Hx Hl IH]; [left; intros x []|]. destruct (G x y (or_introl eq_refl) Hx) as [Ax|Fy]; [|right; left; exact Fy].
  destruct IH as [IH|IH]; [intros a b I Rab; apply G; [right; exact I|exact Rab]| |right; right; exact IH]. left. intros a [<-|I]; [exact Ax|apply IH, I].
Qed.
Lemma forall2_right {X Y} (R : X -> Y -> Prop) (Q : Y -> Prop) l ys : Forall2 R l ys -> (forall x y, In x l -> R x y -> Q y) -> Forall Q ys.
Proof. induction 1 as [|x y l ys Hx Hl IH]; intros G; constructor; [apply (G x); [left; reflexivity|exact Hx]|apply IH; intros a b I; apply G; right; exact I]. Qed.
Lemma finite_or_fails v : forall t, body_of v t -> all_known v -> all_plain v -> all_finite v \/ fails t.
Proof.
  induction v as [v IHa IHo] using rvalue_nest. intros t Hb A P. destruct (P v (within_self v)) as [Ps Pn].
  assert (Leaf : rkind v <> KindFloat -> rkind v <> KindArray -> rkind v <> KindObject -> all_finite v) by (intros N1 N2 N3 w W Kw; inversion W; subst; congruence).
  destruct Hb as [(K & ->)|[(K & ->)|[(K & ->)|[(K & ->)|[(K & ->)|[(K & ts & F & ->)|(K & us & F & ->)]]]]]]; try (left; apply Leaf; rewrite K; discriminate).
  - destruct (float_cases (rfloat v)) as [Fi|Fa]; [left|right; exact Fa]. intros w W Kw. inversion W as [|? x K' _ _|? n x K' _ _]; subst; [exact Fi|rewrite K in K'; discriminate|rewrite K in K'; discriminate].
  - assert (Sub : forall x u, In x (rarray v) -> writes x u -> all_plain x /\ all_known x /\ body_of x u).
    { intros x u Hx Wu. assert (Ax := known_all_array _ _ K Hx A). destruct (known_body x Ax) as [u' Hu]. rewrite (writes_unique _ _ _ Wu (body_writes _ _ Hu)). split; [|split; assumption]. intros w W; apply P; eapply within_array; eassumption. }
    destruct (forall2_split writes all_finite fails (rarray v) ts F) as [G|G].
    { intros x u Hx Wu. destruct (Sub x u Hx Wu) as (Px & Ax & Bx). apply (IHa x Hx u Bx Ax Px). }
    + left. intros w W Kw. inversion W as [|? x _ I Wx|? n x K' _ _]; subst; [rewrite K in Kw; discriminate|apply (G x I w Wx Kw)|rewrite K in K'; discriminate].
    + right. apply arr_fails; [| |exact G].
      * apply (forall2_right _ _ _ _ F). intros x u Hx Wu. destruct (Sub x u Hx Wu) as (Px & Ax & Bx). destruct (IHa x Hx u Bx Ax Px) as [Fi|Fa]; [left|right; exact Fa]. destruct (shows_elem x u Bx Ax Px Fi) as (j & _ & E). exists j. exact E.
      * apply (forall2_right _ _ _ _ F). intros x u Hx Wu. destruct (Sub x u Hx Wu) as (Px & Ax & Bx). apply (body_start _ _ Bx).
  - assert (Sub : forall n x u, In (n, x) (robject v) -> writes x u -> plain n /\ all_plain x /\ all_known x /\ body_of x u).
    { intros n x u Hx Wu. assert (Ax := known_all_object _ _ _ K Hx A). destruct (known_body x Ax) as [u' Hu]. rewrite (writes_unique _ _ _ Wu (body_writes _ _ Hu)). split; [apply (Pn K n x Hx)|]. split; [|split; assumption]. intros w W; apply P; eapply within_object; eassumption. }
    destruct (forall2_split _ (fun f => all_finite (snd f)) field_fails (robject v) us F) as [G|G].
    { intros [n x] u Hx (t & -> & Wt). cbn [fst snd] in *. destruct (Sub n x t Hx Wt) as (Pk & Px & Ax & Bx). destruct (IHo n x Hx t Bx Ax Px) as [Fi|Fa]; [left; exact Fi|right; exists n, t; auto]. }
    + left. intros w W Kw. inversion W as [|? x K' _ _|? n x _ I Wx]; subst; [rewrite K in Kw; discriminate|rewrite K in K'; discriminate|apply (G (n, x) I w Wx Kw)].
    + right. apply obj_fails; [|exact G]. apply (forall2_right _ _ _ _ F). intros [n x] u Hx (t & -> & Wt). cbn [fst snd] in *. destruct (Sub n x t Hx Wt) as (Pk & Px & Ax & Bx).
      destruct (IHo n x Hx t Bx Ax Px) as [Fi|Fa]; [left|right; exists n, t; auto]. destruct (shows_elem x t Bx Ax Px Fi) as (j & _ & E). exists n, t. eauto.
Qed.

Definition answers (k : Z) : Prop := k = KindNull \/ k = KindObject.
Lemma response_text r t : answers (rkind (r_data r)) -> writes (r_data r) t -> marshal_response r = Some (B "{" ++ field_text (B "data") t ++ B "}").
Proof.
  intros A W. unfold marshal_response. replace (negb (rkind (r_data r) =? KindNull) && negb (rkind (r_data r) =? KindObject))%Z with false by (destruct A as [-> | ->]; reflexivity).
  rewrite W. cbn [negb]. unfold field_text, quote. rewrite <- !app_assoc. reflexivity.
Qed.
Lemma decode_data t j : elem j t -> decode (B "{" ++ field_text (B "data") t ++ B "}") = Some (JObj [(B "data", j)]).
Proof.
  intros E. unfold decode. set (n := List.length _). assert (L : List.length t + 2 <= n) by (unfold n, field_text; rewrite !app_length; cbn; lia). destruct n as [|n]; [lia|].
  assert (G : B "{" ++ field_text (B "data") t ++ B "}" = B "{" ++ quote ++ (B "data" ++ quote ++ B ":") ++ t ++ B "}" ++ []) by (unfold field_text; rewrite <- !app_assoc; reflexivity).
  rewrite G, object_text. change (quote ++ (B "data" ++ quote ++ B ":") ++ t ++ B "}" ++ []) with ((quote ++ B "data" ++ quote ++ B ":") ++ t ++ B "}" ++ []).
  rewrite (member_last (B "data") j t); [reflexivity|apply plain_B; reflexivity|exact E|lia].
Qed.
Lemma decode_data_fails t : fails t -> decode (B "{" ++ field_text (B "data") t ++ B "}") = None.
Proof.
  intros E. unfold decode. set (n := List.length _). assert (L : List.length t + 2 <= n) by (unfold n, field_text; rewrite !app_length; cbn; lia). destruct n as [|n]; [lia|].
  assert (G : B "{" ++ field_text (B "data") t ++ B "}" = B "{" ++ quote ++ (B "data" ++ quote ++ B ":") ++ t ++ B "}" ++ []) by (unfold field_text; rewrite <- !app_assoc; reflexivity).
  rewrite G, object_text. change (quote ++ (B "data" ++ quote ++ B ":") ++ t ++ B "}" ++ []) with (field_text (B "data") t ++ B "}" ++ []).
  rewrite (member_fails (B "data") t); [reflexivity|apply plain_B; reflexivity|exact E|lia|apply stop_brace].
Qed.

(** ** Theorems *)
(** C60: when every kind is known, the texts are plain and the floats finite, a response whose data is null or an object marshals to the JSON object whose only
    member, "data", is the value the data stand for: the same integers, strings, booleans and nulls, floats to five places, elements and fields in order. *)
Theorem C60_exact r : answers (rkind (r_data r)) -> all_known (r_data r) -> all_plain (r_data r) -> all_finite (r_data r) ->
  exists bytes j, marshal_response r = Some bytes /\ shows (r_data r) j /\ decode bytes = Some (JObj [(B "data", j)]).
Proof.
  intros K A P F. destruct (known_body _ A) as [t Bt]. destruct (shows_elem _ t Bt A P F) as (j & Sj & Ej). eexists _, j. split; [apply response_text; [exact K|apply body_writes, Bt]|]. split; [exact Sj|]. apply decode_data, Ej.
Qed.
Print Assumptions C60_exact.

(** an error is returned exactly when the data are neither null nor an object, or hold a value of unknown kind. *)
Theorem C60_error_iff r : marshal_response r = None <-> ~ answers (rkind (r_data r)) \/ exists w, within w (r_data r) /\ ~ known_kind (rkind w).
Proof.
  unfold marshal_response, answers. split.
  - intros H. destruct (Z.eqb_spec (rkind (r_data r)) KindNull) as [E1|E1]; [|destruct (Z.eqb_spec (rkind (r_data r)) KindObject) as [E2|E2]; [|left; tauto]].
    + right. destruct (known_dec (r_data r)) as [A|X]; [exfalso|exact X]. destruct (known_writes _ A) as [t W]. cbn [negb andb] in H. rewrite W in H. discriminate.
    + right. destruct (known_dec (r_data r)) as [A|X]; [exfalso|exact X]. destruct (known_writes _ A) as [t W]. cbn [negb andb] in H. rewrite W in H. discriminate.
  - intros [N|(w & W & U)].
    + destruct (Z.eqb_spec (rkind (r_data r)) KindNull) as [E1|E1]; [tauto|]. destruct (Z.eqb_spec (rkind (r_data r)) KindObject) as [E2|E2]; [tauto|]. reflexivity.
    + destruct (negb _ && negb _); [reflexivity|]. pose proof (unknown_false w _ W U) as X. match goal with |- context [marshal_value (r_data r) ?b] => specialize (X b); destruct (marshal_value (r_data r) b) as [u ok] end. cbn [snd] in X. rewrite X. reflexivity.
Qed.
Print Assumptions C60_error_iff.

(** a single value: an error exactly for an unknown kind somewhere in it; otherwise its text is appended to what the buffer already held. *)
Theorem C60_value_error_iff v buf : snd (marshal_value v buf) = false <-> exists w, within w v /\ ~ known_kind (rkind w).
Proof.
  split; [|intros (w & W & U); apply (unknown_false w); assumption]. intros H. destruct (known_dec v) as [A|X]; [exfalso|exact X]. destruct (known_writes _ A) as [t W]. rewrite W in H. discriminate.
Qed.
Print Assumptions C60_value_error_iff.
Theorem C60_value_appends v buf : all_known v -> exists t, marshal_value v [] = (t, true) /\ marshal_value v buf = (buf ++ t, true).
Proof. intros A. destruct (known_writes v A) as [t W]. exists t. split; [apply (W [])|apply W]. Qed.
Print Assumptions C60_value_appends.

(** a NaN or an infinity anywhere in the data: the bytes are returned without an error, and are not JSON. *)
Theorem C60_finite_iff r : answers (rkind (r_data r)) -> all_known (r_data r) -> all_plain (r_data r) ->
  exists bytes, marshal_response r = Some bytes /\ (decode bytes <> None <-> all_finite (r_data r)).
Proof.
  intros K A P. destruct (known_body _ A) as [t Bt]. eexists. split; [apply response_text; [exact K|apply body_writes, Bt]|].
  destruct (finite_or_fails _ t Bt A P) as [F|F].
  - destruct (shows_elem _ t Bt A P F) as (j & _ & Ej). rewrite (decode_data t j Ej). split; [intros _; exact F|discriminate].
  - rewrite (decode_data_fails t F). split; [congruence|]. intros Fi. exfalso. destruct (shows_elem _ t Bt A P Fi) as (j & _ & Ej).
    pose proof (F (List.length t) (B "]") (le_n _) (stop_square [])) as X. rewrite (Ej (List.length t) (B "]") (le_n _) (stop_square [])) in X. discriminate.
Qed.
Print Assumptions C60_finite_iff.

(** strings are written as they are: a quotation mark in one ends it, so that a string can forge fields (C60 for all strings, refuted). *)
Definition string_value (s : bytes) : rvalue := RV KindString 0 FNaN s false [] [].
Definition object_value (fs : list (bytes * rvalue)) : rvalue := RV KindObject 0 FNaN [] false [] fs.
Theorem C60_injection n s k u es : marshal_response (mkResponse (object_value [(n, string_value (s ++ quote ++ B "," ++ quote ++ k ++ quote ++ B ":" ++ quote ++ u))]) es) =
  marshal_response (mkResponse (object_value [(n, string_value s); (k, string_value u)]) es).
Proof. unfold marshal_response, quote. cbn. repeat (rewrite <- !app_assoc; cbn). reflexivity. Qed.
Print Assumptions C60_injection.

(** the errors of a response are not part of what is sent. *)
Theorem C60_errors_dropped d es es' : marshal_response (mkResponse d es) = marshal_response (mkResponse d es').
Proof. reflexivity. Qed.
Print Assumptions C60_errors_dropped.

Definition int_value (z : Z) : rvalue := RV KindInt z FNaN [] false [] [].
Definition array_value (l : list rvalue) : rvalue := RV KindArray 0 FNaN [] false l [].
Definition float_value (x : float64) : rvalue := RV KindFloat 0 x [] false [] [].
Definition sample_data (x : float64) : rvalue := object_value [(B "f1", object_value [(B "episodeID", int_value (-4))]); (B "f2", array_value [int_value 123; float_value x; RV KindNull 0 FNaN [] false [] []; RV KindBoolean 0 FNaN [] true [] []; string_value (B "test"); array_value []])].
Fixpoint every (p : rvalue -> bool) (v : rvalue) : bool :=
  match v with RV k i f s b a o => p (RV k i f s b a o) && forallb (every p) a && (fix go l := match l with [] => true | (_, x) :: l => every p x && go l end) o end.
Lemma every_within p v w : within w v -> every p v = true -> p w = true.
Proof.
  induction 1 as [|v x K I W IH|v n x K I W IH]; intros E.
  - destruct w as [k i f s b a o]. cbn [every] in E. rewrite !andb_true_iff in E. tauto.
  - apply IH. destruct v as [k i f s b a o]. cbn [every] in E. rewrite !andb_true_iff in E. destruct E as [[_ E] _]. rewrite forallb_forall in E. apply E, I.
  - apply IH. destruct v as [k i f s b a o]. cbn [every] in E. rewrite !andb_true_iff in E. destruct E as [_ E]. cbn [robject] in I. clear - E I. induction o as [|[m y] o IH]; [destruct I|]. apply andb_prop in E. destruct E as [E1 E2]. destruct I as [I|I]; [injection I as _ <-; exact E1|apply IH; assumption].
Qed.
Definition ascii_plain (s : bytes) : bool := forallb (fun c => (32 <=? zb c) && (zb c <? 128) && negb (zb c =? 34) && negb (zb c =? 92))%Z s.
Lemma ascii_plain_ok s : ascii_plain s = true -> plain s.
Proof.
  intros H. exists (map zb s). induction s as [|c s IH]; [split; [reflexivity|constructor]|]. cbn [ascii_plain forallb] in H. rewrite !andb_true_iff in H. destruct H as ((((H1 & H2) & H3) & H4) & H5).
  destruct (IH H5) as [E F]. split; [|constructor; [unfold scalar; lia|exact F]]. cbn [map]. change (utf8s (zb c :: map zb s)) with (utf8 (zb c) ++ utf8s (map zb s)). rewrite <- E. unfold utf8. replace (zb c <? 128)%Z with true by lia. cbn [app]. rewrite bz_zb. reflexivity.
Qed.
Example C60_nonvacuous : let d := sample_data (FFin false 8687021468732621 (-46)) in
  answers (rkind d) /\ all_known d /\ all_plain d /\ all_finite d /\
  option_map decode (marshal_response (mkResponse d [])) = Some (Some (JObj [(B "data", JObj [(B "f1", JObj [(B "episodeID", JInt (-4))]); (B "f2", JArr [JInt 123; JReal (B "123.45000"); JNull; JBool true; JStr (B "test"); JArr []])])])) /\
  option_map decode (marshal_response (mkResponse (sample_data FNaN) [])) = Some None /\
  marshal_response (mkResponse (sample_data FNaN) []) <> None /\ marshal_response (mkResponse (int_value 1) []) = None /\ marshal_response (mkResponse (object_value [(B "a", array_value [RV 7 0 FNaN [] false [] []])]) []) = None.
Proof.
  cbv zeta. split; [right; reflexivity|]. split; [|split; [|split]].
  - intros w H. apply (every_within (fun v => existsb (Z.eqb (rkind v)) [KindInt; KindFloat; KindString; KindBoolean; KindNull; KindArray; KindObject])) in H; [|vm_compute; reflexivity].
    apply existsb_exists in H. destruct H as (k & Hk & E). apply Z.eqb_eq in E. rewrite E. exact Hk.
  - intros w H. apply (every_within (fun v => ascii_plain (rstr v) && forallb (fun f => ascii_plain (fst f)) (robject v))) in H; [|vm_compute; reflexivity].
    apply andb_prop in H. destruct H as [H1 H2]. split; [intros _; apply ascii_plain_ok, H1|]. intros _ n x I. rewrite forallb_forall in H2. apply ascii_plain_ok, (H2 (n, x) I).
  - intros w H K. apply (every_within (fun v => negb (rkind v =? KindFloat)%Z || match rfloat v with FFin _ _ _ => true | _ => false end)) in H; [|vm_compute; reflexivity].
    rewrite K in H. cbn in H. destruct (rfloat w) as [|[]|neg m e]; try discriminate. exists neg, m, e. reflexivity.
  - split; [vm_compute; reflexivity|]. split; [vm_compute; reflexivity|]. split; [vm_compute; discriminate|]. split; vm_compute; reflexivity.
Qed.
