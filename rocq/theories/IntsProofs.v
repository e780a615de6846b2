(** Proofs about the integer types. *)
From Coq Require Import List NArith ZArith Bool Ascii String Lia.
From Coq Require Import ZifyBool ZifyNat ZifyN.
From Verif Require Import Str StrFacts SpecLex Tz TzProofs Ints.
Import ListNotations.
Local Open Scope N_scope.
Ltac Zify.zify_post_hook ::= Z.div_mod_to_equations.

Arguments chr : simpl never.
Arguments lit : simpl never.

Lemma biguint_digits_app acc a b :
  biguint_digits acc (a ++ b) =
  match biguint_digits acc a with Some n => biguint_digits n b | None => None end.
Proof.
  revert acc; induction a as [|c a IH]; intros acc; cbn [app biguint_digits]; auto.
  destruct (c =? chr "_"); auto. destruct (is_ascii_digit c); auto.
Qed.

Lemma digit_not_us d : d < 10 -> (48 + d =? chr "_") = false.
Proof. intros H. apply N.eqb_neq. change (chr "_") with 95. lia. Qed.

Lemma digit_is_digit d : d < 10 -> is_ascii_digit (48 + d) = true.
Proof. intros H. unfold is_ascii_digit. lia. Qed.

(** [numu] is exactly: starts with a digit and the digit loop succeeds. *)
Lemma numu_iff s n :
  numu s n <-> (exists c t, s = c :: t /\ is_ascii_digit c = true) /\ biguint_digits 0 s = Some n.
Proof.
  split.
  - induction 1 as [d Hd|s n d _ IH Hd|s n _ IH].
    + split; [exists (48 + d), []; split; auto; apply digit_is_digit; auto|].
      cbn [biguint_digits]. rewrite digit_not_us, digit_is_digit by auto. f_equal. lia.
    + destruct IH as ((c & t & -> & Hc) & IH).
      split; [exists c, (t ++ [48 + d]); auto|].
      rewrite biguint_digits_app, IH. cbn [biguint_digits].
      rewrite digit_not_us, digit_is_digit by auto. f_equal. lia.
    + destruct IH as ((c & t & -> & Hc) & IH).
      split; [exists c, (t ++ lit "_"); auto|].
      rewrite biguint_digits_app, IH. reflexivity.
  - intros [(c & t & -> & Hc) H]. revert n H.
    induction t as [|x t IH] using rev_ind; intros n.
    + cbn [biguint_digits]. destruct (c =? chr "_") eqn:E.
      { apply N.eqb_eq in E as ->. discriminate. }
      rewrite Hc. intros H. injection H as <-.
      replace [c] with [48 + (10 * 0 + (c - 48))] by (unfold is_ascii_digit in Hc; f_equal; lia).
      apply numu_one. unfold is_ascii_digit in Hc. lia.
    + rewrite app_comm_cons, biguint_digits_app.
      destruct (biguint_digits 0 (c :: t)) as [m|] eqn:E; [|discriminate].
      cbn [biguint_digits]. destruct (N.eqb_spec x (chr "_")) as [->|Hx].
      * intros [= <-]. apply numu_us. apply IH; auto.
      * destruct (is_ascii_digit x) eqn:Dx; [|discriminate]. intros H. injection H as <-.
        unfold is_ascii_digit in Dx. replace x with (48 + (x - 48)) at 1 by lia.
        apply numu_snoc; [apply IH; auto|lia].
Qed.

Lemma numu_head s n : numu s n -> exists c t, s = c :: t /\ is_ascii_digit c = true.
Proof. rewrite numu_iff; tauto. Qed.

Lemma numu_strip s n c : numu s n -> is_ascii_digit c = false -> strip_prefix c s = None.
Proof.
  intros H Hc. apply numu_head in H as (x & t & -> & Hx). apply strip_prefix_none.
  intros u [= -> _]. congruence.
Qed.

Lemma biguint_ok s n : biguint_from_str s = Ok n <-> unsigned_lex s n.
Proof.
  unfold biguint_from_str.
  assert (Hcore : forall u m, biguint_body u = Ok m <-> numu u m).
  { intros u m. unfold biguint_body. rewrite numu_iff. destruct u as [|c u].
    - split; [discriminate|]. intros [(c & t & E & _) _]; discriminate.
    - destruct (N.eqb_spec c (chr "_")) as [->|Hc].
      + split; [discriminate|]. intros [(c & t & E & Hd) _]. injection E as <- <-. discriminate.
      + destruct (biguint_digits 0 (c :: u)) as [k|] eqn:E.
        * split.
          -- intros [= <-]. split; auto. exists c, u. split; auto.
             revert E. cbn [biguint_digits]. destruct (N.eqb_spec c (chr "_")); [tauto|].
             destruct (is_ascii_digit c); [auto|discriminate].
          -- intros [_ [= <-]]; auto.
        * split; [discriminate|]. intros [_ H]; discriminate. }
  destruct (strip_prefix (chr "+") s) as [tail|] eqn:E.
  - apply strip_prefix_spec in E as ->.
    destruct (strip_prefix (chr "+") tail) as [t2|] eqn:E2.
    + apply strip_prefix_spec in E2 as ->. rewrite Hcore. split.
      * intros H. apply numu_head in H as (c & t & [= <- _] & Hc). discriminate.
      * intros H. remember (chr "+" :: chr "+" :: t2) as w eqn:Ew.
        destruct H as [w n H|w n H]; apply numu_head in H as (c & t & -> & Hc).
        -- injection Ew as -> _; discriminate.
        -- injection Ew as -> _; discriminate.
    + rewrite Hcore. split.
      * intros H. apply (unsigned_plus tail n H).
      * intros H. remember (chr "+" :: tail) as w eqn:Ew. destruct H as [w n H|w n H].
        -- apply numu_head in H as (c & t & -> & Hc). injection Ew as -> _; discriminate.
        -- injection Ew as <-. auto.
  - rewrite Hcore. split; [apply unsigned_plain|].
    intros H. destruct H as [s n H|s n H]; auto.
    apply strip_prefix_none with (t := s) in E. tauto.
Qed.

Lemma biguint_no_panic s : biguint_from_str s <> Panic.
Proof.
  assert (H : forall u, biguint_body u <> Panic).
  { intros [|c u]; cbn [biguint_body]; [discriminate|]. destruct (c =? chr "_"); [discriminate|].
    destruct (biguint_digits 0 (c :: u)); discriminate. }
  unfold biguint_from_str. destruct (strip_prefix (chr "+") s) as [t|]; auto.
  destruct (strip_prefix (chr "+") t); auto.
Qed.

Lemma rmap_ok {A B} (f : A -> B) m b : rmap f m = Ok b <-> exists a, m = Ok a /\ f a = b.
Proof.
  destruct m; cbn; split; try discriminate; intros H.
  - injection H as <-; eauto.
  - destruct H as (x & [= <-] & <-); auto.
  - destruct H as (x & H & _); discriminate.
  - destruct H as (x & H & _); discriminate.
Qed.

Lemma unsigned_head s n : unsigned_lex s n -> strip_prefix (chr "-") s = None.
Proof.
  intros H. destruct H as [s n H|s n H].
  - apply (numu_strip _ _ _ H); auto.
  - reflexivity.
Qed.

Lemma bigint_ok s z : bigint_from_str s = Ok z <-> signed_lex s z.
Proof.
  unfold bigint_from_str. destruct (strip_prefix (chr "-") s) as [tail|] eqn:E.
  - apply strip_prefix_spec in E as ->.
    assert (Hneg : forall z, signed_lex (chr "-" :: tail) z <-> exists n, numu tail n /\ z = (- Z.of_N n)%Z).
    { intros z'. split.
      - intros H. remember (chr "-" :: tail) as w eqn:Ew. destruct H as [w n H|w n H].
        + apply unsigned_head in H. rewrite Ew in H. discriminate.
        + injection Ew as <-. eauto.
      - intros (n & H & ->). apply (signed_neg tail n H). }
    rewrite Hneg. destruct (strip_prefix (chr "+") tail) as [t2|] eqn:E2.
    + apply strip_prefix_spec in E2 as ->. rewrite rmap_ok. split.
      * intros (n & H & _). apply biguint_ok in H. apply unsigned_head in H. discriminate.
      * intros (n & H & _). apply numu_head in H as (c & t & [= <- _] & Hc). discriminate.
    + rewrite rmap_ok. split.
      * intros (n & H & <-). apply biguint_ok in H. exists n. split; auto.
        destruct H as [s n H|s n H]; auto. discriminate E2.
      * intros (n & H & ->). exists n. split; auto. apply biguint_ok. constructor; auto.
  - rewrite rmap_ok. split.
    + intros (n & H & <-). apply biguint_ok in H. constructor; auto.
    + intros H. destruct H as [s n H|s n H].
      * exists n. split; auto. apply biguint_ok; auto.
      * discriminate E.
Qed.

Lemma bigint_no_panic s : bigint_from_str s <> Panic.
Proof.
  unfold bigint_from_str. destruct (strip_prefix (chr "-") s) as [tail|];
  [destruct (strip_prefix (chr "+") tail) as [t2|]|];
  match goal with |- rmap _ (biguint_from_str ?u) <> _ =>
    pose proof (biguint_no_panic u); destruct (biguint_from_str u); cbn; congruence end.
Qed.

Lemma num_numu s n : num s n -> numu s n.
Proof. induction 1; [constructor|apply numu_snoc]; auto. Qed.

(** The numerals without '_' are the XSD ones. *)
Lemma numu_num s n : numu s n -> ~ In (chr "_") s -> num s n.
Proof.
  induction 1 as [d Hd|s n d _ IH Hd|s n _ IH]; intros H.
  - constructor; auto.
  - constructor; auto. apply IH. intros Hin; apply H, in_or_app; auto.
  - exfalso. apply H, in_or_app. right. left. reflexivity.
Qed.

Lemma bigint_display_lex z : xsd_integer (bigint_display z) z.
Proof.
  unfold bigint_display. destruct (Z.ltb_spec z 0).
  - replace z with (- Z.of_N (Z.abs_N z))%Z at 2 by lia. apply (xsd_int_minus _ _ (num_dec _)).
  - replace z with (Z.of_N (Z.abs_N z))%Z at 2 by lia. apply (xsd_int_plain _ _ (num_dec _)).
Qed.

Lemma xsd_signed s z : xsd_integer s z -> signed_lex s z.
Proof.
  intros H. destruct H as [s n H|s n H|s n H]; apply num_numu in H.
  - apply signed_pos, unsigned_plain; auto.
  - apply signed_pos, unsigned_plus; auto.
  - apply signed_neg; auto.
Qed.

Lemma signed_xsd s z : signed_lex s z -> ~ In (chr "_") s -> xsd_integer s z.
Proof.
  intros H Hu. destruct H as [s n H|s n H].
  - destruct H as [s n H|s n H].
    + apply xsd_int_plain. apply numu_num; auto.
    + apply xsd_int_plus. apply numu_num; auto. intros Hin. apply Hu. right; auto.
  - apply xsd_int_minus. apply numu_num; auto. intros Hin. apply Hu. right; auto.
Qed.

Lemma integer_round z : integer_from_str (integer_display z) = Ok z.
Proof. apply bigint_ok, xsd_signed, bigint_display_lex. Qed.
Lemma biguint_round n : biguint_from_str (biguint_display n) = Ok n.
Proof. apply biguint_ok. constructor. apply num_numu, num_dec. Qed.

Lemma bind_guard {A} (m : res A) (p : A -> bool) a :
  bind m (fun v => if p v then Err else Ok v) = Ok a <-> m = Ok a /\ p a = false.
Proof.
  destruct m as [x| |]; cbn [bind]; [|split; [discriminate|intros [H _]; discriminate]..].
  destruct (p x) eqn:E; split.
  - discriminate.
  - intros [H1 H2]. injection H1 as ->. congruence.
  - intros [= <-]; auto.
  - intros [H1 _]; auto.
Qed.

Lemma nn_ok s n : non_negative_integer_from_str s = Ok n <-> unsigned_lex s n.
Proof.
  unfold non_negative_integer_from_str. rewrite bind_guard, biguint_ok. split; [tauto|].
  intros H; split; auto. lia.
Qed.
Lemma p_ok s n : positive_integer_from_str s = Ok n <-> unsigned_lex s n /\ 1 <= n.
Proof.
  unfold positive_integer_from_str. rewrite bind_guard, biguint_ok.
  split; intros [H1 H2]; split; auto; lia.
Qed.
Lemma np_ok s z : non_positive_integer_from_str s = Ok z <-> signed_lex s z /\ (z <= 0)%Z.
Proof.
  unfold non_positive_integer_from_str. rewrite (bind_guard _ (fun v => 0 <? v)%Z), bigint_ok.
  split; intros [H1 H2]; split; auto; lia.
Qed.
Lemma neg_ok s z : negative_integer_from_str s = Ok z <-> signed_lex s z /\ (z <= -1)%Z.
Proof.
  unfold negative_integer_from_str. rewrite (bind_guard _ (fun v => 0 <=? v)%Z), bigint_ok.
  split; intros [H1 H2]; split; auto; lia.
Qed.

Lemma bind_guard_panic {A} (m : res A) (p : A -> bool) :
  m <> Panic -> bind m (fun v => if p v then Err else Ok v) <> Panic.
Proof. destruct m as [x| |]; cbn [bind]; try congruence. destruct (p x); discriminate. Qed.

Lemma ints_no_panic s :
  integer_from_str s <> Panic /\ non_negative_integer_from_str s <> Panic /\
  positive_integer_from_str s <> Panic /\ non_positive_integer_from_str s <> Panic /\
  negative_integer_from_str s <> Panic.
Proof.
  split; [apply bigint_no_panic|].
  split; [apply (bind_guard_panic _ (fun v => v <? 0)), biguint_no_panic|].
  split; [apply (bind_guard_panic _ (fun v => v <=? 0)), biguint_no_panic|].
  split; [apply (bind_guard_panic _ (fun v => 0 <? v)%Z), bigint_no_panic|].
  apply (bind_guard_panic _ (fun v => 0 <=? v)%Z), bigint_no_panic.
Qed.

Lemma integer_xsd s z :
  (xsd_integer s z -> integer_from_str s = Ok z) /\
  (integer_from_str s = Ok z -> ~ In (chr "_") s -> xsd_integer s z).
Proof.
  split; intros H.
  - apply bigint_ok, xsd_signed; auto.
  - apply signed_xsd, bigint_ok; auto.
Qed.

Lemma integer_underscore : exists s z, integer_from_str s = Ok z /\ forall z', ~ xsd_integer s z'.
Proof.
  exists (lit "1_0"), 10%Z. split; [reflexivity|]. intros z' H.
  assert (D : forall s n, num s n -> ~ In (chr "_") s).
  { intros s n Hn. apply digits_not_in; [apply (num_digits _ _ Hn)|reflexivity]. }
  remember (lit "1_0") as w eqn:E.
  destruct H as [w n H|w n H|w n H].
  - apply D in H. rewrite E in H. apply H. right; left; reflexivity.
  - discriminate E.
  - discriminate E.
Qed.

Lemma ints_round_trip :
  (forall z, integer_from_str (integer_display z) = Ok z) /\
  (forall n, non_negative_integer_from_str (non_negative_integer_display n) = Ok n) /\
  (forall n, positive_integer_from_str (positive_integer_display n) = if 1 <=? n then Ok n else Err) /\
  (forall z, non_positive_integer_from_str (non_positive_integer_display z) =
             if (z <=? 0)%Z then Ok z else Err) /\
  (forall z, negative_integer_from_str (negative_integer_display z) =
             if (z <=? -1)%Z then Ok z else Err).
Proof.
  split; [exact integer_round|]. split; [|split; [|split]]; intros v.
  - apply nn_ok, biguint_ok, biguint_round.
  - unfold positive_integer_from_str, positive_integer_display. rewrite biguint_round. cbn [bind].
    destruct (N.leb_spec v 0), (N.leb_spec 1 v); auto; lia.
  - unfold non_positive_integer_from_str, non_positive_integer_display.
    pose proof (integer_round v) as R. unfold integer_from_str, integer_display in R. rewrite R.
    cbn [bind]. destruct (Z.ltb_spec 0 v), (Z.leb_spec v 0); auto; lia.
  - unfold negative_integer_from_str, negative_integer_display.
    pose proof (integer_round v) as R. unfold integer_from_str, integer_display in R. rewrite R.
    cbn [bind]. destruct (Z.leb_spec 0 v), (Z.leb_spec v (-1)); auto; lia.
Qed.
