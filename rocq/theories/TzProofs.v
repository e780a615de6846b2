(** Proofs about the time-zone model. *)
From Coq Require Import List NArith ZArith Bool Ascii String Lia.
From Coq Require Import ZifyBool ZifyNat ZifyN.
From Verif Require Import Str StrFacts SpecLex Tz.
Import ListNotations.
Local Open Scope N_scope.
Ltac Zify.zify_post_hook ::= Z.div_mod_to_equations.

(** ** The specification's numerals agree with the model's digit strings *)
Lemma num_iff s n :
  num s n <-> s <> [] /\ forallb is_ascii_digit s = true /\ digits_val s = n.
Proof.
  split.
  - induction 1 as [d Hd|s n d _ IH Hd].
    + split; [discriminate|]. cbn [forallb]. unfold is_ascii_digit.
      split; [lia|]. rewrite digits_val_cons. cbn [List.length].
      change (digits_val []) with 0. change (10 ^ N.of_nat 0) with 1. unfold digit_val. lia.
    + destruct IH as (H1 & H2 & H3). split; [destruct s; discriminate|].
      rewrite forallb_app, H2. cbn [forallb]. unfold is_ascii_digit. split; [lia|].
      rewrite digits_val_app, digits_val_cons, H3. cbn [List.length].
      change (digits_val []) with 0. change (10 ^ N.of_nat 0) with 1.
      change (10 ^ N.of_nat 1) with 10. unfold digit_val. lia.
  - intros (H1 & H2 & <-). induction s as [|c s IH] using rev_ind; [congruence|].
    rewrite forallb_app in H2. apply andb_true_iff in H2 as [H2 H3].
    cbn [forallb] in H3. rewrite andb_true_r in H3. unfold is_ascii_digit in H3.
    rewrite digits_val_app, digits_val_cons. cbn [List.length].
    change (digits_val []) with 0. change (10 ^ N.of_nat 0) with 1.
    change (10 ^ N.of_nat 1) with 10. unfold digit_val.
    replace c with (48 + (c - 48)) at 1 by lia.
    destruct s as [|x s].
    + replace (digits_val [] * 10 + ((c - 48) * 1 + 0)) with (c - 48)
        by (change (digits_val []) with 0; lia).
      apply num_one. lia.
    + replace (digits_val (x :: s) * 10 + ((c - 48) * 1 + 0))
        with (10 * digits_val (x :: s) + (c - 48)) by lia.
      apply num_snoc; [|lia]. apply IH; auto. discriminate.
Qed.

Lemma two_iff s n :
  two s n <-> List.length s = 2%nat /\ forallb is_ascii_digit s = true /\ digits_val s = n.
Proof.
  unfold two. rewrite num_iff. split; [tauto|]. intros (H1 & H2 & H3).
  repeat split; auto. destruct s; discriminate.
Qed.

Lemma num_dec n : num (dec n) n.
Proof. apply num_iff. split; [apply dec_nonempty|]. split; [apply dec_digits|apply dec_val]. Qed.

Lemma num_pad w n : num (pad w n) n.
Proof. apply num_iff. split; [apply pad_nonempty|]. split; [apply pad_digits|apply pad_val]. Qed.

Lemma two_pad n : n < 100 -> two (pad 2 n) n.
Proof. intros H. split; [apply num_pad|]. apply pad_length; auto. Qed.

Lemma num_fun s a b : num s a -> num s b -> a = b.
Proof. rewrite !num_iff. intros (_ & _ & <-) (_ & _ & <-). auto. Qed.

Lemma num_digits s n : num s n -> forallb is_ascii_digit s = true.
Proof. rewrite num_iff; tauto. Qed.

Lemma two_lt s n : two s n -> n < 100.
Proof.
  rewrite two_iff. intros (H1 & H2 & <-). pose proof (digits_val_bound s H2) as H.
  rewrite H1 in H. exact H.
Qed.

Lemma two_shape s n : two s n ->
  exists a b, s = [a; b] /\ is_ascii_digit a = true /\ is_ascii_digit b = true.
Proof.
  rewrite two_iff. intros (H1 & H2 & _). destruct s as [|a [|b [|? ?]]]; try discriminate.
  cbn [forallb] in H2. rewrite !andb_true_iff in H2. exists a, b. tauto.
Qed.

(** ** parse_i32 on digit strings *)
Lemma digits_no_prefix c s :
  forallb is_ascii_digit s = true -> is_ascii_digit c = false -> strip_prefix c s = None.
Proof.
  intros H Hc. apply strip_prefix_none. intros t ->. cbn [forallb] in H. rewrite Hc in H. discriminate.
Qed.

Lemma parse_i32_digits s : s <> [] -> forallb is_ascii_digit s = true ->
  parse_i32 s = if (Z.of_N (digits_val s) <=? i32_max)%Z then Some (Z.of_N (digits_val s)) else None.
Proof.
  intros H1 H2. unfold parse_i32.
  rewrite (digits_no_prefix 45), (digits_no_prefix 43) by auto.
  destruct s as [|c s]; [congruence|]. rewrite H2.
  destruct (Z.leb_spec i32_min (Z.of_N (digits_val (c :: s)))) as [_|H]; [reflexivity|].
  unfold i32_min in H. lia.
Qed.

Lemma parse_i32_two s n : two s n -> parse_i32 s = Some (Z.of_N n).
Proof.
  intros H. pose proof (two_lt s n H) as Hlt. apply two_iff in H as (H1 & H2 & H3).
  rewrite parse_i32_digits by (auto; destruct s; discriminate).
  rewrite H3. destruct (Z.leb_spec (Z.of_N n) i32_max); auto. unfold i32_max in *. lia.
Qed.

(** ** parse_timezone *)
Lemma parse_timezone_ok s z : parse_timezone s = Ok z <-> tz_lex s z.
Proof.
  unfold parse_timezone. destruct (str_eqb_spec s (lit "Z")) as [->|Hz].
  - split.
    + intros [= <-]. constructor.
    + intros H. inversion H; subst; reflexivity.
  - split.
    + unfold slice_from. destruct (split_at s 1) as [[a b]|] eqn:E; [|discriminate].
      apply split_at_spec in E as [-> E]. cbn [bind].
      destruct (split_on (chr ":") b) as [|t0 [|t1 [|? ?]]] eqn:Es; try discriminate.
      apply split_on_2 in Es as (-> & Hn0 & Hn1).
      destruct (byte_len t0 =? 2)%nat eqn:L0; [|discriminate].
      destruct (byte_len t1 =? 2)%nat eqn:L1; [|discriminate]. cbn [negb orb].
      destruct (forallb is_ascii_digit t0 && forallb is_ascii_digit t1) eqn:D; [|discriminate].
      apply andb_true_iff in D as [D0 D1]. cbn [negb].
      apply Nat.eqb_eq in L0, L1. rewrite byte_len_digits in L0, L1 by auto.
      assert (T0 : two t0 (digits_val t0)) by (apply two_iff; auto).
      assert (T1 : two t1 (digits_val t1)) by (apply two_iff; auto).
      rewrite (parse_i32_two _ _ T0), (parse_i32_two _ _ T1). cbn [unwrap bind].
      set (h := digits_val t0) in *. set (m := digits_val t1) in *.
      destruct (_ || _ || _)%bool eqn:R; [discriminate|].
      assert (Hr : h * 60 + m <= 14 * 60 /\ m < 60) by lia. clear R.
      destruct a as [|c a]; [discriminate|].
      assert (a = []) as ->.
      { cbn [byte_len] in E. pose proof (utf8_len_pos c). apply byte_len_0. lia. }
      cbn [app]. destruct (N.eqb_spec c (chr "+")) as [->|Hp].
      * unfold ok_or, east_opt. destruct (_ && _)%bool; [|discriminate].
        intros Heq; injection Heq as <-. replace (60 * (60 * Z.of_N h + Z.of_N m))%Z
          with (Z.of_N (3600 * h + 60 * m)) by lia.
        apply (tz_east t0 t1 h m); tauto.
      * destruct (N.eqb_spec c (chr "-")) as [->|Hm]; [|discriminate].
        unfold ok_or, west_opt. destruct (_ && _)%bool; [|discriminate].
        intros Heq; injection Heq as <-. replace (60 * (60 * Z.of_N h + Z.of_N m))%Z
          with (Z.of_N (3600 * h + 60 * m)) by lia.
        apply (tz_west t0 t1 h m); tauto.
    + intros H. inversion H as [|hs ms h m Hh Hm Hr1 Hr2|hs ms h m Hh Hm Hr1 Hr2]; subst; [congruence| |];
      clear H Hz.
      all: pose proof (two_shape _ _ Hh) as (h1 & h2 & -> & D1 & D2).
      all: pose proof (two_shape _ _ Hm) as (m1 & m2 & -> & D3 & D4).
      * change (slice_from (lit "+" ++ [h1; h2] ++ lit ":" ++ [m1; m2]) 1)
          with (@Ok str ([h1; h2] ++ chr ":" :: [m1; m2])). cbn [bind].
        rewrite split_on_app, split_on_none.
        2, 3: apply digits_not_in; [cbn [forallb]; rewrite ?D1, ?D2, ?D3, ?D4|]; reflexivity.
        rewrite !byte_len_digits by (cbn [forallb]; rewrite ?D1, ?D2, ?D3, ?D4; reflexivity).
        cbn [List.length Nat.eqb negb orb forallb]. rewrite D1, D2, D3, D4. cbn [negb andb].
        rewrite (parse_i32_two _ _ Hh), (parse_i32_two _ _ Hm). cbn [unwrap bind].
        assert (HR : ((14 <? Z.of_N h) || ((Z.of_N h =? 14) && negb (Z.of_N m =? 0))
                      || (60 <=? Z.of_N m))%Z = false) by lia. rewrite HR. clear HR.
        change (lit "+" ++ [h1; h2] ++ lit ":" ++ [m1; m2])
          with (chr "+" :: [h1; h2] ++ lit ":" ++ [m1; m2]). cbv beta iota zeta.
        change (chr "+" =? chr "+") with true. cbv iota.
        unfold east_opt. destruct (_ && _)%bool eqn:R2; [|lia]. cbn [ok_or]. f_equal. lia.
      * change (slice_from (lit "-" ++ [h1; h2] ++ lit ":" ++ [m1; m2]) 1)
          with (@Ok str ([h1; h2] ++ chr ":" :: [m1; m2])). cbn [bind].
        rewrite split_on_app, split_on_none.
        2, 3: apply digits_not_in; [cbn [forallb]; rewrite ?D1, ?D2, ?D3, ?D4|]; reflexivity.
        rewrite !byte_len_digits by (cbn [forallb]; rewrite ?D1, ?D2, ?D3, ?D4; reflexivity).
        cbn [List.length Nat.eqb negb orb forallb]. rewrite D1, D2, D3, D4. cbn [negb andb].
        rewrite (parse_i32_two _ _ Hh), (parse_i32_two _ _ Hm). cbn [unwrap bind].
        assert (HR : ((14 <? Z.of_N h) || ((Z.of_N h =? 14) && negb (Z.of_N m =? 0))
                      || (60 <=? Z.of_N m))%Z = false) by lia. rewrite HR. clear HR.
        change (lit "-" ++ [h1; h2] ++ lit ":" ++ [m1; m2])
          with (chr "-" :: [h1; h2] ++ lit ":" ++ [m1; m2]). cbv beta iota zeta.
        change (chr "-" =? chr "+") with false. change (chr "-" =? chr "-") with true. cbv iota.
        unfold west_opt. destruct (_ && _)%bool eqn:R2; [|lia]. cbn [ok_or]. f_equal. lia.
Qed.

(** The panics: empty text, or a first character longer than one byte. *)
Lemma parse_timezone_panic s :
  parse_timezone s = Panic <-> s = [] \/ exists c t, s = c :: t /\ 128 <= c.
Proof.
  unfold parse_timezone. destruct (str_eqb_spec s (lit "Z")) as [->|Hz].
  - split; [discriminate|]. intros [H|(c & t & [= <- <-] & H)]; [discriminate|lia].
  - unfold slice_from. destruct s as [|c s].
    + cbn. split; auto.
    + cbn [split_at]. destruct (utf8_len c <=? 1)%nat eqn:L.
      * assert (utf8_len c = 1)%nat as -> by (pose proof (utf8_len_pos c); lia).
        assert (Hs : split_at s (1 - 1) = Some ([], s)) by (destruct s; reflexivity).
        rewrite Hs. cbn [bind]. split.
        -- destruct (split_on (chr ":") s) as [|t0 [|t1 [|? ?]]] eqn:Es; try discriminate.
           destruct (byte_len t0 =? 2)%nat eqn:L0; [|discriminate].
           destruct (byte_len t1 =? 2)%nat eqn:L1; [|discriminate]. cbn [negb orb].
           destruct (forallb is_ascii_digit t0 && forallb is_ascii_digit t1) eqn:D; [|discriminate].
           apply andb_true_iff in D as [D0 D1]. cbn [negb].
           apply Nat.eqb_eq in L0, L1. rewrite byte_len_digits in L0, L1 by auto.
           rewrite (parse_i32_two _ (digits_val t0)), (parse_i32_two _ (digits_val t1))
             by (apply two_iff; auto).
           cbn [unwrap bind]. destruct (_ || _ || _)%bool; [discriminate|].
           destruct (c =? chr "+").
           { unfold east_opt. destruct (_ && _)%bool; discriminate. }
           destruct (c =? chr "-"); [|discriminate].
           unfold west_opt. destruct (_ && _)%bool; discriminate.
        -- intros [H|(c' & t & [= <- <-] & H)]; [discriminate|].
           exfalso. revert L. unfold utf8_len.
           destruct (N.ltb_spec c 128); [lia|]. repeat destruct (_ <? _); discriminate.
      * cbn [bind]. split; auto. intros _. right. exists c, s. split; auto.
        revert L. unfold utf8_len. destruct (N.ltb_spec c 128); [discriminate|auto].
Qed.

(** ** Display *)
Lemma display_offset_whole z :
  (Z.abs z <= 14 * 3600)%Z -> (z mod 60 = 0)%Z -> tz_lex (display_offset z) z.
Proof.
  intros H1 H2. unfold display_offset.
  set (off := Z.to_N (Z.abs z)).
  assert (Hoff : Z.of_N off = Z.abs z) by lia. clearbody off.
  assert (off mod 60 = 0) as -> by lia. cbn [N.eqb].
  change (0 =? 0) with true. cbv iota.
  assert (Ht1 : two (pad 2 (off / 60 / 60)) (off / 60 / 60)) by (apply two_pad; lia).
  assert (Ht2 : two (pad 2 ((off / 60) mod 60)) ((off / 60) mod 60)) by (apply two_pad; lia).
  destruct (Z.ltb_spec z 0).
  - replace z with (- Z.of_N (3600 * (off / 60 / 60) + 60 * ((off / 60) mod 60)))%Z by lia.
    apply (tz_west _ _ _ _ Ht1 Ht2); lia.
  - replace z with (Z.of_N (3600 * (off / 60 / 60) + 60 * ((off / 60) mod 60)))%Z by lia.
    apply (tz_east _ _ _ _ Ht1 Ht2); lia.
Qed.

Lemma tz_lex_zone s z : tz_lex s z -> (Z.abs z <= 14 * 3600 /\ z mod 60 = 0)%Z.
Proof. intros H. inversion H; subst; lia. Qed.

Lemma tz_lex_length s z : tz_lex s z -> List.length s = 1%nat \/ List.length s = 6%nat.
Proof.
  intros H. inversion H as [|hs ms h m [_ L1] [_ L2] _ _|hs ms h m [_ L1] [_ L2] _ _]; subst; auto.
  all: right; rewrite !app_length, L1, L2; reflexivity.
Qed.

Lemma tz_lex_fun s z z' : tz_lex s z -> tz_lex s z' -> z = z'.
Proof. rewrite <- !parse_timezone_ok. congruence. Qed.

Lemma round_trip z : fixed_offset z ->
  parse_timezone (display_offset z) =
  if ((Z.abs z <=? 14 * 3600) && (z mod 60 =? 0))%Z then Ok z else Err.
Proof.
  intros Hf. unfold fixed_offset in Hf.
  destruct (_ && _)%bool eqn:E.
  - apply parse_timezone_ok, display_offset_whole; lia.
  - destruct (parse_timezone (display_offset z)) as [z'| |] eqn:P; auto; exfalso.
    + apply parse_timezone_ok in P. pose proof (tz_lex_length _ _ P) as HL.
      revert P HL. unfold display_offset. set (off := Z.to_N (Z.abs z)).
      assert (Hoff : Z.of_N off = Z.abs z) by lia.
      assert (P2 : forall n, n < 60 -> List.length (pad 2 n) = 2%nat)
        by (intros; apply pad_length; [lia|auto]).
      destruct (N.eqb_spec (off mod 60) 0) as [E0|E0]; intros P HL.
      * (* whole minutes, more than 14 hours *)
        assert (Hh : two (pad 2 (off / 60 / 60)) (off / 60 / 60)) by (apply two_pad; lia).
        assert (Hm : two (pad 2 ((off / 60) mod 60)) ((off / 60) mod 60)) by (apply two_pad; lia).
        pose proof (two_shape _ _ Hh) as (a & b & Ea & _). rewrite Ea in *.
        pose proof (two_shape _ _ Hm) as (c & d & Ec & _). rewrite Ec in *.
        clear Ea Ec HL.
        remember ((if (z <? 0)%Z then chr "-" else chr "+") :: [a; b] ++ lit ":" ++ [c; d]) as w eqn:Hw.
        destruct P as [|hs ms h m H1 H2 R1 R2|hs ms h m H1 H2 R1 R2]; [discriminate Hw| |].
        all: pose proof (two_shape _ _ H1) as (a' & b' & -> & _).
        all: pose proof (two_shape _ _ H2) as (c' & d' & -> & _).
        all: injection Hw as _ -> -> -> ->.
        all: pose proof (num_fun _ _ _ (proj1 H1) (proj1 Hh)).
        all: pose proof (num_fun _ _ _ (proj1 H2) (proj1 Hm)).
        all: lia.
      * rewrite !app_length in HL. cbn [List.length] in HL. rewrite app_length in HL.
        rewrite app_length in HL.
        rewrite (pad_length 2 (off mod 60)), (P2 ((off / 60) mod 60)) in HL by lia.
        pose proof (pad_length_ge 2 (off / 60 / 60)). cbn in HL. lia.
    + apply parse_timezone_panic in P as [P|(c & t & P & Hc)].
      * unfold display_offset in P. destruct (_ =? _); discriminate.
      * unfold display_offset in P.
        assert (c = chr "-" \/ c = chr "+") as [-> | ->].
        { destruct (_ =? _) in P; destruct (_ <? 0)%Z in P; cbn in P; injection P as <- _; auto. }
        all: revert Hc; cbn; lia.
Qed.
