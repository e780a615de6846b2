(** Proofs about dates and times. *)
From Coq Require Import List NArith ZArith Bool Ascii String Lia.
From Coq Require Import ZifyBool ZifyNat ZifyN.
From Verif Require Import Str StrFacts SpecLex Tz TzProofs GTypes GProofs SpecDate DateTime.
Import ListNotations.
Local Open Scope N_scope.
Ltac Zify.zify_post_hook ::= Z.div_mod_to_equations.

Arguments chr : simpl never.
Arguments lit : simpl never.

(** ** Scanning *)

Definition no_digit (s : str) : Prop := forall c r, s = c :: r -> is_ascii_digit c = false.

Lemma take_digits_spec max : forall s ds r, take_digits max s = (ds, r) ->
  s = ds ++ r /\ forallb is_ascii_digit ds = true /\ (List.length ds <= max)%nat.
Proof.
  induction max as [|k IH]; intros s ds r H; cbn [take_digits] in H.
  - injection H as <- <-. auto.
  - destruct s as [|c s]; [injection H as <- <-; cbn; repeat split; auto; lia|].
    destruct (is_ascii_digit c) eqn:E.
    + destruct (take_digits k s) as [ds' r'] eqn:E'. injection H as <- <-.
      apply IH in E' as (-> & F & L). cbn. rewrite E, F. repeat split; auto; lia.
    + injection H as <- <-. cbn. repeat split; auto; lia.
Qed.

Lemma take_digits_app max : forall ds r, forallb is_ascii_digit ds = true ->
  (List.length ds <= max)%nat -> (List.length ds = max \/ no_digit r) ->
  take_digits max (ds ++ r) = (ds, r).
Proof.
  induction max as [|k IH]; intros ds r F L M; cbn [take_digits].
  - destruct ds; [auto|cbn in L; lia].
  - destruct ds as [|c ds]; cbn [app].
    + destruct r as [|c r]; auto. destruct M as [M|M]; [discriminate|].
      rewrite (M c r eq_refl). auto.
    + cbn in F, L. apply andb_true_iff in F as [-> F].
      rewrite IH; auto; try lia. cbn in M. destruct M; auto; lia.
Qed.

Lemma take_digits_rest s : no_digit (snd (take_digits (List.length s) s)).
Proof.
  induction s as [|c s IH]; cbn [List.length take_digits]; [intros ? ? ?; discriminate|].
  destruct (is_ascii_digit c) eqn:E.
  - destruct (take_digits (List.length s) s); exact IH.
  - cbn [snd]. intros ? ? [= <- <-]. auto.
Qed.

Lemma scan_number_ok lo hi s r v : scan_number lo hi s = Ok (r, v) ->
  exists ds, s = ds ++ r /\ forallb is_ascii_digit ds = true /\
    (lo <= List.length ds <= hi)%nat /\ digits_val ds = v.
Proof.
  unfold scan_number. destruct (take_digits hi s) as [ds r'] eqn:E.
  apply take_digits_spec in E as (-> & F & L).
  destruct (Nat.ltb_spec (List.length ds) lo); [discriminate|].
  destruct (digits_val ds <=? i64_max); [|discriminate].
  intros [= <- <-]. exists ds. repeat split; auto.
Qed.

Lemma scan_number_app lo hi ds r : forallb is_ascii_digit ds = true ->
  (lo <= List.length ds <= hi)%nat -> (List.length ds = hi \/ no_digit r) ->
  digits_val ds <= i64_max -> scan_number lo hi (ds ++ r) = Ok (r, digits_val ds).
Proof.
  intros F L M V. unfold scan_number. rewrite take_digits_app; auto; [|lia].
  destruct (Nat.ltb_spec (List.length ds) lo); [lia|].
  destruct (N.leb_spec (digits_val ds) i64_max); [auto|lia].
Qed.

Lemma small_i64 ds k : (List.length ds <= k)%nat -> forallb is_ascii_digit ds = true ->
  (k <= 18)%nat -> digits_val ds <= i64_max.
Proof.
  intros L F K. pose proof (digits_val_bound ds F) as B.
  assert (10 ^ N.of_nat (List.length ds) <= 10 ^ 18) by (apply N.pow_le_mono_r; lia).
  change (10 ^ 18) with 1000000000000000000 in H. unfold i64_max. lia.
Qed.

Lemma ws_not_digit c : is_whitespace c = true -> is_ascii_digit c = false.
Proof. unfold is_whitespace, is_ascii_digit. lia. Qed.

Lemma trim_start_spec s : exists w, s = w ++ trim_start s /\ blank w.
Proof.
  induction s as [|c s (w & E & B)]; cbn [trim_start].
  - exists []. split; auto. intros ? [].
  - destruct (is_whitespace c) eqn:E'.
    + exists (c :: w). split; [cbn; congruence|]. intros x [<-|H]; auto.
    + exists []. split; auto. intros ? [].
Qed.

Lemma trim_start_app w t : blank w -> trim_start (w ++ t) = trim_start t.
Proof.
  intros B. induction w as [|c w IH]; cbn [app trim_start]; auto.
  rewrite (B c (or_introl eq_refl)). apply IH. intros x H. apply B. right. auto.
Qed.

Lemma trim_start_digits ds r : ds <> [] -> forallb is_ascii_digit ds = true ->
  trim_start (ds ++ r) = ds ++ r.
Proof.
  destruct ds as [|c ds]; [congruence|]. intros _ F. cbn in F. apply andb_true_iff in F as [F _].
  cbn [app trim_start]. destruct (is_whitespace c) eqn:E; auto.
  apply ws_not_digit in E. congruence.
Qed.

Lemma scan_item_ok s r v : scan_item s = Ok (r, v) -> exists i, s = i ++ r /\ item i v.
Proof.
  unfold scan_item. intros H. apply scan_number_ok in H as (ds & E & F & L & V).
  destruct (trim_start_spec s) as (w & Es & B). rewrite E in Es.
  exists (w ++ ds). rewrite <- app_assoc. split; auto.
  exists w, ds. repeat split; auto; [|lia]. apply num_iff. repeat split; auto.
  destruct ds; [cbn in L; lia|congruence].
Qed.

Lemma scan_item_app i r v : item i v -> no_digit r -> scan_item (i ++ r) = Ok (r, v).
Proof.
  intros (w & ds & -> & B & Hn & L) D. apply num_iff in Hn as (N0 & F & V).
  unfold scan_item. rewrite <- app_assoc, trim_start_app, trim_start_digits; auto.
  subst v. apply scan_number_app; auto.
  - destruct ds; [congruence|]. cbn in *; lia.
  - eapply small_i64; eauto; lia.
Qed.

Lemma scan_char_ok c s r : scan_char c s = Ok r <-> s = c :: r.
Proof.
  unfold scan_char. destruct s as [|x s]; [split; discriminate|].
  destruct (N.eqb_spec x c) as [->|Hx]; split; intros H; try discriminate H.
  - injection H as ->. auto.
  - injection H as ->. auto.
  - injection H as -> _. congruence.
Qed.

Lemma no_digit_cons c r : is_ascii_digit c = false -> no_digit (c :: r).
Proof. intros H ? ? [= <- <-]. auto. Qed.
Lemma no_digit_nil : no_digit [].
Proof. intros ? ? H. discriminate H. Qed.

Lemma scan_year_ok s r y : scan_year s = Ok (r, y) ->
  exists ys sg, s = ys ++ r /\ year_item ys sg y.
Proof.
  unfold scan_year. destruct (trim_start_spec s) as (w & Es & B).
  set (t := trim_start s) in *. clearbody t.
  assert (NN : forall ds n lo hi, forallb is_ascii_digit ds = true ->
    (S lo <= List.length ds <= hi)%nat -> digits_val ds = n -> num ds n).
  { intros ds n l h F L V. apply num_iff. repeat split; auto. destruct ds; [cbn in L; lia|congruence]. }
  destruct (strip_prefix (chr "-") t) as [t'|] eqn:E1.
  - apply strip_prefix_spec in E1 as ->. rewrite bind_ok. intros ([r' v] & H & [= <- <-]).
    apply scan_number_ok in H as (ds & -> & F & L & V).
    exists (w ++ lit "-" ++ ds), Minus. subst s. split.
    + rewrite <- !app_assoc. reflexivity.
    + constructor; eauto.
  - destruct (strip_prefix (chr "+") t) as [t'|] eqn:E2.
    + apply strip_prefix_spec in E2 as ->. rewrite bind_ok. intros ([r' v] & H & [= <- <-]).
      apply scan_number_ok in H as (ds & -> & F & L & V).
      exists (w ++ lit "+" ++ ds), Plus. subst s. split.
      * rewrite <- !app_assoc. reflexivity.
      * constructor; eauto.
    + rewrite bind_ok. intros ([r' v] & H & [= <- <-]).
      apply scan_number_ok in H as (ds & -> & F & L & V).
      exists (w ++ ds), Unsigned. subst s. rewrite <- app_assoc. split; auto.
      constructor; eauto. lia.
Qed.

Lemma scan_year_app ys sg r y : year_item ys sg y -> no_digit r ->
  (Z.abs y <= Z.of_N i64_max)%Z -> scan_year (ys ++ r) = Ok (r, y).
Proof.
  intros H D V. destruct H as [w ds n B Hn L|w ds n B Hn|w ds n B Hn];
  unfold scan_year; rewrite <- app_assoc, trim_start_app by auto;
  apply num_iff in Hn as (N0 & F & V0).
  - rewrite trim_start_digits; auto.
    destruct ds as [|c ds]; [congruence|]. pose proof F as F'. cbn in F'.
    apply andb_true_iff in F' as [Fc _].
    assert (strip_prefix (chr "-") ((c :: ds) ++ r) = None) as ->.
    { apply strip_prefix_none. intros t [= -> _]. discriminate. }
    assert (strip_prefix (chr "+") ((c :: ds) ++ r) = None) as ->.
    { apply strip_prefix_none. intros t [= -> _]. discriminate. }
    rewrite scan_number_app; auto.
    + cbn [bind]. congruence.
    + cbn in *; lia.
    + lia.
  - change ((lit "-" ++ ds) ++ r) with (chr "-" :: (ds ++ r)). cbn [trim_start].
    change (is_whitespace (chr "-")) with false. cbn [strip_prefix].
    rewrite N.eqb_refl, scan_number_app; auto.
    + cbn [bind]. congruence.
    + rewrite app_length. destruct ds; [congruence|]. cbn; lia.
    + lia.
  - change ((lit "+" ++ ds) ++ r) with (chr "+" :: (ds ++ r)). cbn [trim_start].
    change (is_whitespace (chr "+")) with false. cbn [strip_prefix].
    change (chr "-" =? chr "+") with false.
    rewrite N.eqb_refl, scan_number_app; auto.
    + cbn [bind]. congruence.
    + rewrite app_length. destruct ds; [congruence|]. cbn; lia.
    + lia.
Qed.

(** ** Calendar *)

Lemma leap_same y : leap_year y = leap y.
Proof.
  unfold leap_year, leap.
  destruct (Z.eqb_spec (y mod 400) 0), (Z.eqb_spec (y mod 100) 0), (Z.eqb_spec (y mod 4) 0);
  cbn [negb andb orb]; auto; lia.
Qed.

Lemma month_length_ok y m : (1 <= m <= 12)%Z -> month_length y m = days_in_month y m.
Proof.
  intros H. unfold month_length, days_in_month. rewrite leap_same.
  assert (m = 1 \/ m = 2 \/ m = 3 \/ m = 4 \/ m = 5 \/ m = 6 \/ m = 7 \/ m = 8 \/ m = 9 \/
          m = 10 \/ m = 11 \/ m = 12)%Z as C by lia.
  repeat destruct C as [->|C]; try subst m; reflexivity.
Qed.

Lemma from_ymd_ok lo hi y m d n : from_ymd_opt lo hi y m d = Some n <->
  calendar lo hi y m d /\ n = {| n_year := y; n_month := m; n_day := d |}.
Proof.
  unfold from_ymd_opt, calendar.
  destruct ((lo <=? y) && (y <=? hi) && (1 <=? m) && (m <=? 12))%Z eqn:E.
  - rewrite month_length_ok by lia. cbn [andb].
    destruct ((1 <=? d) && (d <=? days_in_month y m))%Z eqn:E'.
    + split; [intros [= <-]|intros [_ ->]]; repeat split; lia.
    + split; [discriminate|]. intros [H _]. lia.
  - cbn [andb]. split; [discriminate|]. intros [H _]. lia.
Qed.

Lemma ok_or_ok {A} (o : option A) a : ok_or o = Ok a <-> o = Some a.
Proof. destruct o; cbn; split; congruence. Qed.

Lemma item_not_in c s n : item s n -> is_ascii_digit c = false -> is_whitespace c = false -> ~ In c s.
Proof.
  intros (w & ds & -> & B & Hn & L) Hd Hw Hin. apply in_app_or in Hin as [Hin|Hin].
  - apply B in Hin. congruence.
  - eapply num_not_in; eauto.
Qed.

Lemma year_item_not_in s sg y c : year_item s sg y -> is_ascii_digit c = false -> is_whitespace c = false ->
  In c s -> sg = Minus /\ c = chr "-" \/ sg = Plus /\ c = chr "+".
Proof.
  intros H Hd Hw Hin. destruct H as [w ds n B Hn L|w ds n B Hn|w ds n B Hn];
  apply in_app_or in Hin as [Hin|Hin]; try (apply B in Hin; congruence).
  - exfalso. eapply num_not_in; eauto.
  - change (lit "-" ++ ds) with (chr "-" :: ds) in Hin. apply in_inv in Hin as [Hin|Hin]; [auto|].
    exfalso. eapply num_not_in; eauto.
  - change (lit "+" ++ ds) with (chr "+" :: ds) in Hin. apply in_inv in Hin as [Hin|Hin]; [auto|].
    exfalso. eapply num_not_in; eauto.
Qed.

Lemma year_item_count s sg y : year_item s sg y ->
  count (chr "-") s = match sg with Minus => 1%nat | _ => 0%nat end /\
  count (chr "+") s = match sg with Plus => 1%nat | _ => 0%nat end.
Proof.
  assert (BB : forall c w, blank w -> is_whitespace c = false -> count c w = 0%nat).
  { intros c w B E. apply count_not_in. intros Hin. apply B in Hin. congruence. }
  assert (NN : forall c s n, num s n -> is_ascii_digit c = false -> count c s = 0%nat).
  { intros c t n Hn E. apply count_not_in. eapply num_not_in; eauto. }
  intros H. destruct H as [w ds n B Hn L|w ds n B Hn|w ds n B Hn]; rewrite !count_app;
  rewrite !(BB _ w B) by reflexivity; rewrite !(NN _ ds n Hn) by reflexivity; split; reflexivity.
Qed.

(** ** NaiveDate *)
Section Years.
  Variables lo hi : Z.
  Hypothesis Hlo : (- Z.of_N i64_max <= lo)%Z.
  Hypothesis Hhi : (hi <= Z.of_N i64_max)%Z.

  Lemma parse_naive_date_ok s n : parse_naive_date lo hi s = Ok n <->
    exists sg, date_body lo hi s sg (n_year n) (n_month n) (n_day n).
  Proof.
    unfold parse_naive_date. split.
    - rewrite bind_ok. intros ([s1 y] & H1 & H). apply scan_year_ok in H1 as (ys & sg & -> & Hy).
      rewrite bind_ok in H. destruct H as (s2 & H2 & H). apply scan_char_ok in H2 as ->.
      rewrite bind_ok in H. destruct H as ([s3 m] & H3 & H). apply scan_item_ok in H3 as (ms & -> & Hm).
      rewrite bind_ok in H. destruct H as (s4 & H4 & H). apply scan_char_ok in H4 as ->.
      rewrite bind_ok in H. destruct H as ([s5 d] & H5 & H). apply scan_item_ok in H5 as (ds & -> & Hd).
      destruct s5; [|discriminate H]. apply ok_or_ok, from_ymd_ok in H as [Hc ->].
      exists sg, ys, ms, ds, m, d. cbn [n_year n_month n_day]. rewrite app_nil_r. repeat split; auto; apply Hc.
    - intros (sg & ys & ms & ds & m & d & -> & Hy & Hm & Hd & Em & Ed & Hc).
      rewrite (scan_year_app ys sg _ (n_year n)); auto.
      + cbn [bind]. change (lit "-" ++ ms ++ lit "-" ++ ds) with (chr "-" :: (ms ++ chr "-" :: ds)).
        rewrite (proj2 (scan_char_ok _ _ (ms ++ chr "-" :: ds))) by auto. cbn [bind].
        rewrite (scan_item_app ms _ m); auto; [|apply no_digit_cons; reflexivity]. cbn [bind].
        rewrite (proj2 (scan_char_ok _ _ ds)) by auto. cbn [bind].
        rewrite <- (app_nil_r ds), (scan_item_app ds _ d); auto; [|apply no_digit_nil]. cbn [bind].
        apply ok_or_ok, from_ymd_ok. rewrite <- Em, <- Ed. split; auto. destruct n; auto.
      + apply no_digit_cons. reflexivity.
      + unfold calendar in Hc. lia.
  Qed.

  Lemma date_body_count s sg y m d : date_body lo hi s sg y m d ->
    count (chr "-") s = match sg with Minus => 3%nat | _ => 2%nat end /\
    count (chr "+") s = match sg with Plus => 1%nat | _ => 0%nat end /\ ~ In (chr "Z") s.
  Proof.
    intros (ys & ms & ds & nm & nd & -> & Hy & Hm & Hd & _).
    pose proof (year_item_count _ _ _ Hy) as [Y1 Y2].
    assert (II : forall c i n, item i n -> is_ascii_digit c = false -> is_whitespace c = false ->
              count c i = 0%nat).
    { intros. apply count_not_in. eapply item_not_in; eauto. }
    rewrite !count_app, Y1, Y2. rewrite !(II _ ms nm Hm), !(II _ ds nd Hd) by reflexivity.
    split; [destruct sg; reflexivity|]. split; [destruct sg; reflexivity|].
    apply not_in_app; [|apply not_in_app; [inlit|apply not_in_app; [|apply not_in_app; [inlit|]]]].
    - intros Hin. apply (year_item_not_in _ _ _ _ Hy) in Hin; [|reflexivity|reflexivity].
      destruct Hin as [[_ Hin]|[_ Hin]]; discriminate Hin.
    - eapply item_not_in; eauto.
    - eapply item_not_in; eauto.
  Qed.

  Lemma date_ok s v : date_from_str lo hi s = Ok v <->
    exists body zone sg, s = body ++ zone /\
      date_body lo hi body sg (n_year (d_value v)) (n_month (d_value v)) (n_day (d_value v)) /\
      tz_opt zone (d_tz v) /\ zone_fits sg zone.
  Proof.
    unfold date_from_str. split.
    - destruct (strip_suffix (chr "Z") s) as [s'|] eqn:EZ.
      + apply strip_suffix_spec in EZ as ->. rewrite bind_ok. intros (n & Hn & [= <-]).
        apply parse_naive_date_ok in Hn as (sg & Hb). cbn [d_value d_tz].
        exists s', (lit "Z"), sg. repeat split; auto.
        * constructor. constructor.
        * destruct sg; cbn [zone_fits]; auto.
      + destruct (contains (chr "+") s) eqn:EP.
        * destruct (1 <? count (chr "+") s)%nat; [discriminate|].
          destruct (split_before (chr "+") 0 s) as [[b t]|] eqn:ES; [|discriminate].
          apply split_before_spec in ES as (-> & Hc & t' & ->).
          rewrite bind_ok. intros (n & Hn & H). rewrite bind_ok in H.
          destruct H as (tz & Htz & [= <-]). apply parse_timezone_ok in Htz.
          apply parse_naive_date_ok in Hn as (sg & Hb). cbn [d_value d_tz].
          exists b, (chr "+" :: t'), sg. repeat split; auto; [constructor; auto|].
          apply date_body_count in Hb as (_ & Hp & _). rewrite Hc in Hp.
          destruct sg; cbn [zone_fits]; eauto. discriminate Hp.
        * rewrite contains_count in EP.
          destruct (Nat.eqb_spec (count (chr "-") s) 3).
          -- destruct (split_before (chr "-") 2 s) as [[b t]|] eqn:ES; [|discriminate].
             apply split_before_spec in ES as (-> & Hc & t' & ->).
             rewrite bind_ok. intros (n & Hn & H). rewrite bind_ok in H.
             destruct H as (tz & Htz & [= <-]). apply parse_timezone_ok in Htz.
             apply parse_naive_date_ok in Hn as (sg & Hb). cbn [d_value d_tz].
             exists b, (chr "-" :: t'), sg. repeat split; auto; [constructor; auto|].
             apply date_body_count in Hb as (Hm & Hp & _). rewrite Hc in Hm.
             rewrite count_app, Hp in EP.
             destruct sg; cbn [zone_fits]; eauto; [discriminate Hm|discriminate EP].
          -- rewrite bind_ok. intros (n' & Hn & [= <-]). cbn [d_value d_tz].
             apply parse_naive_date_ok in Hn as (sg & Hb).
             exists s, [], sg. rewrite app_nil_r. repeat split; auto; [constructor|].
             apply date_body_count in Hb as (Hm & Hp & _).
             destruct sg; cbn [zone_fits]; eauto; [congruence|]. rewrite Hp in EP. discriminate EP.
    - intros (b & z & sg & -> & Hb & Ht & Hf).
      pose proof (date_body_count _ _ _ _ _ Hb) as (Hm & Hp & HZ).
      assert (P : parse_naive_date lo hi b = Ok (d_value v)) by (apply parse_naive_date_ok; eauto).
      assert (V : forall tz, d_tz v = tz -> {| d_value := d_value v; d_tz := tz |} = v)
        by (intros tz <-; destruct v; auto).
      remember (d_tz v) as tz eqn:Etz. destruct Ht as [|t z Hz].
      + rewrite app_nil_r. destruct (strip_suffix (chr "Z") b) as [p|] eqn:EZ.
        { apply strip_suffix_spec in EZ as ->. exfalso. apply HZ, in_or_app. right. left. auto. }
        destruct sg; cbn [zone_fits] in Hf; [|destruct Hf as [Hf|[? Hf]]; discriminate Hf|discriminate Hf].
        rewrite contains_count, Hp, Hm, P. cbn [Nat.eqb negb bind]. rewrite V; auto.
      + pose proof (proj2 (parse_timezone_ok t z) Hz) as Pz.
        pose proof (tz_lex_sign _ _ Hz) as [[-> ->]|(c & t' & -> & Hc & Np & Nm & NZ)].
        * assert (strip_suffix (chr "Z") (b ++ lit "Z") = Some b) as ->
            by (apply strip_suffix_spec; reflexivity).
          rewrite P. cbn [bind]. change (unwrap (east_opt 0)) with (@Ok Z 0%Z). cbn [bind]. rewrite V; auto.
        * assert (strip_suffix (chr "Z") (b ++ c :: t') = None) as ->.
          { apply strip_suffix_none. intros p E.
            assert (Hin : In (chr "Z") (b ++ c :: t')) by (rewrite E; apply in_or_app; right; left; auto).
            apply in_app_or in Hin as [Hin|Hin]; auto. apply in_inv in Hin as [Hin|Hin]; auto.
            destruct Hc as [-> | ->]; discriminate. }
          rewrite contains_count, !count_app, Hp, Hm. cbn [count].
          rewrite (count_not_in _ _ Np), (count_not_in _ _ Nm).
          destruct Hc as [-> | ->].
          -- change (chr "+" =? chr "+") with true. cbn [negb Nat.eqb Nat.add].
             assert (sg <> Plus) as Hsg by (intros ->; discriminate Hf).
             replace (match sg with Plus => 1 | _ => 0 end)%nat with 0%nat by (destruct sg; congruence).
             cbn [Nat.add Nat.eqb negb Nat.ltb Nat.leb].
             assert (split_before (chr "+") 0 (b ++ chr "+" :: t') = Some (b, chr "+" :: t')) as ->.
             { apply split_before_spec; repeat split; eauto. destruct sg; congruence. }
             rewrite P. cbn [bind]. rewrite Pz. cbn [bind]. rewrite V; auto.
          -- change (chr "+" =? chr "-") with false. change (chr "-" =? chr "-") with true.
             destruct sg; cbn [zone_fits] in Hf; [|destruct Hf as [Hf|[? Hf]]; discriminate Hf|discriminate Hf].
             cbn [Nat.add Nat.eqb negb].
             assert (split_before (chr "-") 2 (b ++ chr "-" :: t') = Some (b, chr "-" :: t')) as ->
               by (apply split_before_spec; repeat split; eauto).
             rewrite P. cbn [bind]. rewrite Pz. cbn [bind]. rewrite V; auto.
  Qed.
End Years.

(** ** NaiveTime, Time *)

Lemma item_count c i n : item i n -> is_ascii_digit c = false -> is_whitespace c = false ->
  count c i = 0%nat.
Proof. intros. apply count_not_in. eapply item_not_in; eauto. Qed.

Lemma to_naive_time_ok h m s nano t : (0 <= h)%Z -> (0 <= m)%Z -> (0 <= s)%Z -> (0 <= nano < 10 ^ 9)%Z ->
  to_naive_time h m s nano = Some t <->
  n_hour t = h /\ n_min t = m /\ clock h m s nano (n_sec t) (n_nano t).
Proof.
  intros Hh Hm Hs Hn. change (10 ^ 9)%Z with 1000000000%Z in Hn.
  unfold to_naive_time, from_hms_nano_opt, clock. change (10 ^ 9)%Z with 1000000000%Z.
  destruct (Z.leb_spec s 59).
  - destruct ((24 <=? h) || (60 <=? m) || (60 <=? s) || ((1000000000 <=? nano) && negb (s =? 59))
      || (2000000000 <=? nano))%Z eqn:E.
    + split; [discriminate|]. lia.
    + split; [intros [= <-]; cbn [n_hour n_min n_sec n_nano]; lia|].
      intros (<- & <- & H'). destruct t as [th tm ts tn]; cbn [n_hour n_min n_sec n_nano] in *. f_equal. f_equal; lia.
  - destruct (Z.eqb_spec s 60) as [->|].
    + destruct ((24 <=? h) || (60 <=? m) || (60 <=? 59) || ((1000000000 <=? 1000000000 + nano) && negb (59 =? 59))
      || (2000000000 <=? 1000000000 + nano))%Z eqn:E.
      * split; [discriminate|]. lia.
      * split; [intros [= <-]; cbn [n_hour n_min n_sec n_nano]; lia|].
        intros (<- & <- & H'). destruct t as [th tm ts tn]; cbn [n_hour n_min n_sec n_nano] in *. f_equal. f_equal; lia.
    + split; [discriminate|]. lia.
Qed.

Lemma parse_naive_time_ok s n : parse_naive_time s = Ok n <->
  time_body s (n_hour n) (n_min n) (n_sec n) (n_nano n).
Proof.
  unfold parse_naive_time. split.
  - rewrite bind_ok. intros ([s1 h] & H1 & H). apply scan_item_ok in H1 as (hs & -> & Hh).
    rewrite bind_ok in H. destruct H as (s2 & H2 & H). apply scan_char_ok in H2 as ->.
    rewrite bind_ok in H. destruct H as ([s3 m] & H3 & H). apply scan_item_ok in H3 as (ms & -> & Hm).
    rewrite bind_ok in H. destruct H as (s4 & H4 & H). apply scan_char_ok in H4 as ->.
    rewrite bind_ok in H. destruct H as ([s5 d] & H5 & H). apply scan_item_ok in H5 as (ds & -> & Hd).
    destruct s5; [|discriminate H]. apply ok_or_ok, to_naive_time_ok in H; [|lia|lia|lia|lia].
    destruct H as (E1 & E2 & Hc).
    exists hs, ms, ds, h, m, d. rewrite app_nil_r, E1, E2. do 6 (split; [auto|]). exact Hc.
  - intros (hs & ms & ds & h & m & d & -> & Hh & Hm & Hd & Eh & Em & Hc).
    change (lit ":" ++ ms ++ lit ":" ++ ds) with (chr ":" :: (ms ++ chr ":" :: ds)).
    rewrite (scan_item_app hs _ h); auto; [|apply no_digit_cons; reflexivity]. cbn [bind].
    rewrite (proj2 (scan_char_ok _ _ (ms ++ chr ":" :: ds))) by auto. cbn [bind].
    rewrite (scan_item_app ms _ m); auto; [|apply no_digit_cons; reflexivity]. cbn [bind].
    rewrite (proj2 (scan_char_ok _ _ ds)) by auto. cbn [bind].
    rewrite <- (app_nil_r ds), (scan_item_app ds _ d); auto; [|apply no_digit_nil]. cbn [bind].
    apply ok_or_ok, to_naive_time_ok; try lia. rewrite <- Eh, <- Em. auto.
Qed.

Lemma time_body_count s h m sec nan c : time_body s h m sec nan ->
  is_ascii_digit c = false -> is_whitespace c = false -> c <> chr ":" -> count c s = 0%nat.
Proof.
  intros (hs & ms & ss & nh & nm & ns & -> & Hh & Hm & Hs & _) Hd Hw Hc.
  rewrite !count_app, (item_count _ _ _ Hh), (item_count _ _ _ Hm), (item_count _ _ _ Hs) by auto.
  assert (count c (lit ":") = 0%nat) as ->; [|reflexivity].
  apply count_not_in. intros Hin. apply in_inv in Hin as [Hin|[]]. apply Hc. symmetry. exact Hin.
Qed.

Definition mk_time (n : ntime) (tz : option Z) : res time := Ok {| t_value := n; t_tz := tz |}.

Lemma time_generic s v : time_from_str s = Ok v <-> generic parse_naive_time mk_time 0 s = Ok v.
Proof.
  unfold time_from_str, generic, mk_time. change (unwrap (east_opt 0)) with (@Ok Z 0%Z). cbn [bind].
  destruct (strip_suffix (chr "Z") s); [tauto|].
  destruct (contains (chr "+") s); [tauto|]. rewrite contains_count.
  destruct (count (chr "-") s) as [|[|k]] eqn:E; cbn [Nat.eqb negb Nat.ltb Nat.leb]; [tauto|tauto|].
  split; [discriminate|]. rewrite bind_ok. intros (n & Hn & _).
  apply parse_naive_time_ok in Hn. apply (time_body_count _ _ _ _ _ (chr "-")) in Hn;
  [congruence|reflexivity|reflexivity|discriminate].
Qed.

Lemma time_ok s v : time_from_str s = Ok v <->
  exists body zone, s = body ++ zone /\
    time_body body (n_hour (t_value v)) (n_min (t_value v)) (n_sec (t_value v)) (n_nano (t_value v)) /\
    tz_opt zone (t_tz v).
Proof.
  rewrite time_generic, generic_ok.
  - split.
    + intros (b & t & a & tz & -> & Ha & Ht & [= <-]). cbn [t_value t_tz].
      exists b, t. repeat split; auto. apply parse_naive_time_ok; auto.
    + intros (b & z & -> & Hb & Hz). exists b, z, (t_value v), (t_tz v). repeat split; auto.
      * apply parse_naive_time_ok; auto.
      * unfold mk_time. destruct v; auto.
  - intros b a H. apply parse_naive_time_ok in H. eapply time_body_count; eauto. discriminate.
  - intros b a H. apply parse_naive_time_ok in H. eapply time_body_count; eauto. discriminate.
  - intros b a H. apply parse_naive_time_ok in H. apply count_0_not_in. eapply time_body_count; eauto. discriminate.
Qed.

(** ** No panics *)

Lemma parse_timezone_signed c t : c = chr "+" \/ c = chr "-" -> parse_timezone (c :: t) <> Panic.
Proof.
  intros Hc H. apply parse_timezone_panic in H as [H|(c' & t' & E & Hc')]; [discriminate|].
  injection E as <- _. destruct Hc as [-> | ->]; revert Hc'; vm_compute; auto.
Qed.

Lemma scan_number_no_panic a b s : scan_number a b s <> Panic.
Proof.
  unfold scan_number. destruct (take_digits b s). destruct (_ <? _)%nat; [discriminate|].
  destruct (_ <=? _); discriminate.
Qed.
Lemma scan_char_no_panic c s : scan_char c s <> Panic.
Proof. unfold scan_char. destruct s; [discriminate|]. destruct (_ =? _); discriminate. Qed.

Ltac nopanic :=
  repeat match goal with
  | H : bind _ _ = Panic |- _ =>
      apply bind_panic in H as [H|(?a & ?Ha & H)]
  | H : (let '(_, _) := ?x in _) = Panic |- _ => destruct x
  | H : scan_number _ _ _ = Panic |- _ => exact (scan_number_no_panic _ _ _ H)
  | H : scan_item _ = Panic |- _ => exact (scan_number_no_panic _ _ _ H)
  | H : scan_char _ _ = Panic |- _ => exact (scan_char_no_panic _ _ H)
  | H : Ok _ = Panic |- _ => discriminate H
  | H : Err = Panic |- _ => discriminate H
  | H : ok_or ?o = Panic |- _ => destruct o; discriminate H
  | H : match ?x with _ => _ end = Panic |- _ => destruct x
  end.

Lemma parse_naive_date_no_panic lo hi s : parse_naive_date lo hi s <> Panic.
Proof.
  unfold parse_naive_date, scan_year. intros H. nopanic.
Qed.
Lemma parse_naive_time_no_panic s : parse_naive_time s <> Panic.
Proof. unfold parse_naive_time. intros H. nopanic. Qed.

Lemma date_no_panic lo hi s : date_from_str lo hi s <> Panic.
Proof.
  unfold date_from_str. intros H.
  destruct (strip_suffix (chr "Z") s) as [s'|].
  { apply bind_panic in H as [H|(a & _ & H)]; [|discriminate]. exact (parse_naive_date_no_panic _ _ _ H). }
  destruct (contains (chr "+") s) eqn:EP.
  - destruct (1 <? count (chr "+") s)%nat; [discriminate|].
    destruct (split_before (chr "+") 0 s) as [[b t]|] eqn:ES.
    + apply split_before_spec in ES as (-> & Hc & t' & ->).
      apply bind_panic in H as [H|(a & _ & H)]; [exact (parse_naive_date_no_panic _ _ _ H)|].
      apply bind_panic in H as [H|(a' & _ & H)]; [|discriminate].
      revert H. apply parse_timezone_signed. auto.
    + rewrite contains_count in EP. destruct (split_before_some (chr "+") 0 s) as (a & b & E); [|congruence].
      destruct (count (chr "+") s); [discriminate|lia].
  - destruct (Nat.eqb_spec (count (chr "-") s) 3).
    + destruct (split_before (chr "-") 2 s) as [[b t]|] eqn:ES.
      * apply split_before_spec in ES as (-> & Hc & t' & ->).
        apply bind_panic in H as [H|(a & _ & H)]; [exact (parse_naive_date_no_panic _ _ _ H)|].
        apply bind_panic in H as [H|(a' & _ & H)]; [|discriminate].
        revert H. apply parse_timezone_signed. auto.
      * destruct (split_before_some (chr "-") 2 s) as (a & b & E); [lia|congruence].
    + apply bind_panic in H as [H|(a & _ & H)]; [|discriminate]. exact (parse_naive_date_no_panic _ _ _ H).
Qed.

Lemma time_no_panic s : time_from_str s <> Panic.
Proof.
  unfold time_from_str. intros H.
  destruct (strip_suffix (chr "Z") s) as [s'|].
  { apply bind_panic in H as [H|(a & _ & H)]; [|discriminate]. exact (parse_naive_time_no_panic _ H). }
  destruct (contains (chr "+") s) eqn:EP.
  - destruct (1 <? count (chr "+") s)%nat; [discriminate|].
    destruct (split_before (chr "+") 0 s) as [[b t]|] eqn:ES.
    + apply split_before_spec in ES as (-> & Hc & t' & ->).
      apply bind_panic in H as [H|(a & _ & H)]; [exact (parse_naive_time_no_panic _ H)|].
      apply bind_panic in H as [H|(a' & _ & H)]; [|discriminate].
      revert H. apply parse_timezone_signed. auto.
    + rewrite contains_count in EP. destruct (split_before_some (chr "+") 0 s) as (a & b & E); [|congruence].
      destruct (count (chr "+") s); [discriminate|lia].
  - destruct (contains (chr "-") s) eqn:EM.
    + destruct (1 <? count (chr "-") s)%nat; [discriminate|].
      destruct (split_before (chr "-") 0 s) as [[b t]|] eqn:ES.
      * apply split_before_spec in ES as (-> & Hc & t' & ->).
        apply bind_panic in H as [H|(a & _ & H)]; [exact (parse_naive_time_no_panic _ H)|].
        apply bind_panic in H as [H|(a' & _ & H)]; [|discriminate].
        revert H. apply parse_timezone_signed. auto.
      * rewrite contains_count in EM. destruct (split_before_some (chr "-") 0 s) as (a & b & E); [|congruence].
        destruct (count (chr "-") s); [discriminate|lia].
    + apply bind_panic in H as [H|(a & _ & H)]; [|discriminate]. exact (parse_naive_time_no_panic _ H).
Qed.

(** ** Round trips *)

Lemma blank_nil : blank [].
Proof. intros ? []. Qed.

Lemma item_pad n : n < 100 -> item (pad 2 n) n.
Proof.
  intros H. exists [], (pad 2 n). repeat split; auto using blank_nil, num_pad.
  rewrite pad_length; [lia|change (10 ^ N.of_nat 2) with 100; lia|lia].
Qed.

Lemma format_year_item y : exists sg, year_item (format_year y) sg y /\
  ((0 <= y <= 9999)%Z /\ sg = Unsigned \/ (y < 0)%Z /\ sg = Minus \/ (9999 < y)%Z /\ sg = Plus).
Proof.
  unfold format_year. destruct ((0 <=? y) && (y <=? 9999))%Z eqn:E.
  - exists Unsigned. split; [|left; split; [lia|auto]].
    replace y with (Z.of_N (Z.to_N y)) at 2 by lia.
    apply (yi_plain [] (pad 4 (Z.to_N y))); [apply blank_nil|apply num_pad|]. rewrite pad_length; [lia|change (10 ^ N.of_nat 4) with 10000; lia|lia].
  - destruct (Z.ltb_spec y 0).
    + exists Minus. split; [|right; left; split; [lia|auto]]. replace y with (- Z.of_N (Z.abs_N y))%Z at 2 by lia.
      apply (yi_minus [] (pad 4 (Z.abs_N y))); auto using blank_nil, num_pad.
    + exists Plus. split; [|right; right; split; [lia|auto]]. replace y with (Z.of_N (Z.abs_N y))%Z at 2 by lia.
      apply (yi_plus [] (pad 4 (Z.abs_N y))); auto using blank_nil, num_pad.
Qed.

Lemma format_date_body lo hi n : calendar lo hi (n_year n) (n_month n) (n_day n) ->
  exists sg, date_body lo hi (format_date n) sg (n_year n) (n_month n) (n_day n) /\
   ((0 <= n_year n <= 9999)%Z /\ sg = Unsigned \/ (n_year n < 0)%Z /\ sg = Minus \/
    (9999 < n_year n)%Z /\ sg = Plus).
Proof.
  intros Hc. destruct (format_year_item (n_year n)) as (sg & Hy & Hsg). exists sg. split; auto.
  pose proof (days_in_month_31 (n_year n) (n_month n)). unfold calendar in Hc.
  exists (format_year (n_year n)), (pad 2 (Z.to_N (n_month n))), (pad 2 (Z.to_N (n_day n))),
    (Z.to_N (n_month n)), (Z.to_N (n_day n)).
  split; [reflexivity|]. split; [auto|].
  split; [apply item_pad; lia|]. split; [apply item_pad; lia|].
  split; [lia|]. split; [lia|]. exact Hc.
Qed.

Lemma display_offset_sign z : exists t,
  display_offset z = (if (z <? 0)%Z then chr "-" else chr "+") :: t /\ ~ In (chr "Z") t.
Proof.
  unfold display_offset.
  assert (P : forall w n, ~ In (chr "Z") (pad w n)).
  { intros w n. apply digits_not_in; [apply pad_digits|reflexivity]. }
  destruct (_ =? 0).
  - eexists. split; [reflexivity|].
    apply not_in_app; [apply P|apply not_in_app; [inlit|apply P]].
  - eexists. split; [cbn [app]; rewrite <- !app_assoc; reflexivity|].
    apply not_in_app; [apply P|apply not_in_app; [inlit|apply not_in_app; [apply P|apply not_in_app; [inlit|apply P]]]].
Qed.

Lemma tz_text_no_Z tz : ~ In (chr "Z") (tz_text tz).
Proof.
  destruct tz as [z|]; cbn [tz_text]; [|intros []].
  destruct (display_offset_sign z) as (t & -> & Ht). intros H. apply in_inv in H as [H|H]; [|tauto].
  destruct (z <? 0)%Z; discriminate H.
Qed.

Lemma tz_opt_xsd s tz : tz_opt s tz -> xsd_zone tz.
Proof. intros H. destruct H; cbn [xsd_zone]; auto. eapply tz_lex_zone; eauto. Qed.

Lemma year_item_head s sg y c t : year_item s sg y -> s = c :: t ->
  (c = chr "-" -> sg = Minus) /\ (c = chr "+" -> sg = Plus).
Proof.
  intros H E. subst s. remember (c :: t) as s.
  destruct H as [w ds n B Hn L|w ds n B Hn|w ds n B Hn]; destruct w as [|x w]; cbn [app] in Heqs.
  - destruct ds; [discriminate|]. injection Heqs as -> ->.
    pose proof (num_head _ _ _ _ Hn eq_refl) as D. split; intros ->; discriminate D.
  - injection Heqs as -> _. specialize (B c (or_introl eq_refl)). split; intros ->; discriminate B.
  - change (lit "-" ++ ds) with (chr "-" :: ds) in Heqs. injection Heqs as <- _.
    split; auto; intros H; discriminate H.
  - injection Heqs as -> _. specialize (B c (or_introl eq_refl)). split; intros ->; discriminate B.
  - change (lit "+" ++ ds) with (chr "+" :: ds) in Heqs. injection Heqs as <- _.
    split; auto; intros H; discriminate H.
  - injection Heqs as -> _. specialize (B c (or_introl eq_refl)). split; intros ->; discriminate B.
Qed.

Lemma year_item_nonempty s sg y : year_item s sg y -> s <> [].
Proof.
  intros H E. destruct H as [w ds n B Hn L|w ds n B Hn|w ds n B Hn]; destruct w; try discriminate E.
  cbn in E. subst ds. apply num_iff in Hn as (? & _). congruence.
Qed.

Lemma date_round_trip lo hi v :
  (- Z.of_N i64_max <= lo)%Z -> (hi <= Z.of_N i64_max)%Z ->
  calendar lo hi (n_year (d_value v)) (n_month (d_value v)) (n_day (d_value v)) ->
  date_from_str lo hi (date_display v) = Ok v <->
  xsd_zone (d_tz v) /\
  ((0 <= n_year (d_value v) <= 9999)%Z \/
   ((n_year (d_value v) < 0)%Z /\ exists z, d_tz v = Some z /\ (0 <= z)%Z)).
Proof.
  intros Hlo Hhi Hc. rewrite date_ok by auto. unfold date_display.
  destruct (format_date_body _ _ _ Hc) as (sg & Hb & Hsg). split.
  - intros (b & z & sg' & E & Hb' & Ht & Hf). split; [eapply tz_opt_xsd; eauto|].
    assert (HZ : z <> lit "Z").
    { intros ->. destruct (date_body_count _ _ _ _ _ _ _ Hb) as (_ & _ & NZ).
      assert (In (chr "Z") (format_date (d_value v) ++ tz_text (d_tz v))) as Hin.
      { rewrite E. apply in_or_app. right. left. reflexivity. }
      apply in_app_or in Hin as [Hin|Hin]; [exact (NZ Hin)|exact (tz_text_no_Z _ Hin)]. }
    destruct Hb' as (ys & ms & ds & nm & nd & -> & Hy & _).
    destruct ys as [|c ys]; [exfalso; eapply year_item_nonempty; eauto|].
    pose proof (year_item_head _ _ _ _ _ Hy eq_refl) as [Hmi Hpl].
    destruct (Z.ltb_spec (n_year (d_value v)) 0) as [Hy0|Hy0].
    + right. split; auto.
      assert (c = chr "-") as ->.
      { unfold format_date, format_year in E.
        destruct ((0 <=? n_year (d_value v)) && (n_year (d_value v) <=? 9999))%Z eqn:E0; [lia|].
        destruct (Z.ltb_spec (n_year (d_value v)) 0); [|lia]. injection E as <- _. auto. }
      rewrite (Hmi eq_refl) in Hf. destruct Hf as [Hf|(t & ->)]; [congruence|].
      remember (chr "+" :: t) as u. destruct Ht as [|u z Hz]; [discriminate|].
      exists z. split; auto. destruct Hz as [|hs ms' h m|hs ms' h m]; [lia|lia|discriminate Hequ].
    + left. split; auto. destruct (Z.leb_spec (n_year (d_value v)) 9999); auto. exfalso.
      assert (c = chr "+") as ->.
      { unfold format_date, format_year in E.
        destruct ((0 <=? n_year (d_value v)) && (n_year (d_value v) <=? 9999))%Z eqn:E0; [lia|].
        destruct (Z.ltb_spec (n_year (d_value v)) 0); [lia|]. injection E as <- _. auto. }
      rewrite (Hpl eq_refl) in Hf. contradiction.
  - intros (Hz & Hy). exists (format_date (d_value v)), (tz_text (d_tz v)), sg.
    split; auto. split; auto. split; [apply tz_text_ok; auto|].
    destruct Hsg as [(_ & ->)|[(Hy' & ->)|(Hy' & ->)]]; cbn [zone_fits]; auto.
    + destruct Hy as [Hy|(_ & z & -> & Hz')]; [lia|]. right. cbn [tz_text].
      destruct (display_offset_sign z) as (t & -> & _). destruct (Z.ltb_spec z 0); [lia|]. eauto.
    + lia.
Qed.

Lemma num_two_digits ds n : item ds n -> n < 100.
Proof.
  intros (w & d & -> & B & Hn & L). apply num_iff in Hn as (_ & F & <-).
  pose proof (digits_val_bound d F).
  assert (10 ^ N.of_nat (List.length d) <= 10 ^ 2) by (apply N.pow_le_mono_r; lia).
  change (10 ^ 2) with 100 in *. lia.
Qed.

Lemma div_1e9 n : (0 <= n < 2 * 10 ^ 9)%Z -> (n / 10 ^ 9 = 0 /\ n < 10 ^ 9 \/ n / 10 ^ 9 = 1 /\ 10 ^ 9 <= n)%Z.
Proof. change (10 ^ 9)%Z with 1000000000%Z. lia. Qed.

(** What is left of a time after display and parse. *)
Definition whole_second (n : ntime) : ntime :=
  {| n_hour := n_hour n; n_min := n_min n;
     n_sec := if (n_sec n + n_nano n / 10 ^ 9 =? 60)%Z then 59 else (n_sec n + n_nano n / 10 ^ 9)%Z;
     n_nano := if (n_sec n + n_nano n / 10 ^ 9 =? 60)%Z then 10 ^ 9 else 0 |}.

Lemma format_time_body n : clock_value (n_hour n) (n_min n) (n_sec n) (n_nano n) ->
  let w := whole_second n in time_body (format_time n) (n_hour w) (n_min w) (n_sec w) (n_nano w).
Proof.
  intros (Hh & Hm & Hs & Hn). cbn zeta. unfold whole_second. cbn [n_hour n_min n_sec n_nano].
  pose proof (div_1e9 _ Hn) as D.
  exists (pad 2 (Z.to_N (n_hour n))), (pad 2 (Z.to_N (n_min n))),
    (pad 2 (Z.to_N (n_sec n + n_nano n / 10 ^ 9))),
    (Z.to_N (n_hour n)), (Z.to_N (n_min n)), (Z.to_N (n_sec n + n_nano n / 10 ^ 9)).
  split; [reflexivity|]. split; [apply item_pad; lia|]. split; [apply item_pad; lia|].
  remember (n_nano n / 10 ^ 9)%Z as q.
  split; [apply item_pad; lia|]. split; [lia|]. split; [lia|]. unfold clock.
  destruct (Z.eqb_spec (n_sec n + q) 60); lia.
Qed.

Lemma time_display_parse v :
  clock_value (n_hour (t_value v)) (n_min (t_value v)) (n_sec (t_value v)) (n_nano (t_value v)) ->
  xsd_zone (t_tz v) ->
  time_from_str (time_display v) = Ok {| t_value := whole_second (t_value v); t_tz := t_tz v |}.
Proof.
  intros Hv Hz. apply time_ok. exists (format_time (t_value v)), (tz_text (t_tz v)).
  split; [reflexivity|]. cbn [t_value t_tz]. split; [apply format_time_body; auto|apply tz_text_ok; auto].
Qed.

Lemma time_round_trip v :
  clock_value (n_hour (t_value v)) (n_min (t_value v)) (n_sec (t_value v)) (n_nano (t_value v)) ->
  time_from_str (time_display v) = Ok v <->
  xsd_zone (t_tz v) /\
  (n_nano (t_value v) = 0 \/ n_nano (t_value v) = 10 ^ 9 /\ n_sec (t_value v) = 59)%Z.
Proof.
  intros Hv. pose proof Hv as (_ & _ & Hs & Hn). pose proof (div_1e9 _ Hn) as D. split.
  - intros H. assert (Hz : xsd_zone (t_tz v)).
    { apply time_ok in H as (b & z & _ & _ & Hz). eapply tz_opt_xsd; eauto. }
    split; auto. rewrite time_display_parse in H by auto.
    injection H as H. apply (f_equal t_value) in H. cbn [t_value] in H.
    destruct v as [[h m s n] tz]. unfold whole_second in H. cbn [t_value n_hour n_min n_sec n_nano] in *.
    remember (n / 10 ^ 9)%Z as q. injection H as H1 H2.
    destruct (Z.eqb_spec (s + q) 60); [right|left]; lia.
  - intros (Hz & H). rewrite time_display_parse by auto. f_equal.
    destruct v as [[h m s n] tz]. unfold whole_second. cbn [t_value t_tz n_hour n_min n_sec n_nano] in *.
    f_equal. remember (n / 10 ^ 9)%Z as q. f_equal; destruct (Z.eqb_spec (s + q) 60); lia.
Qed.

(** ** RFC 3339 *)

Lemma scan_exact_ok k s r v : (1 <= k <= 18)%nat ->
  scan_number k k s = Ok (r, v) <-> exists ds, s = ds ++ r /\ digits k ds v.
Proof.
  intros K. split.
  - intros H. apply scan_number_ok in H as (ds & -> & F & L & V). exists ds. split; auto.
    split; [|lia]. apply num_iff. repeat split; auto. destruct ds; [cbn in L; lia|congruence].
  - intros (ds & -> & Hn & L). apply num_iff in Hn as (N0 & F & <-).
    apply scan_number_app; auto; [lia|]. eapply small_i64; eauto; lia.
Qed.

Lemma scan_two_num s r v : scan_number 2 2 s = Ok (r, v) <-> exists ds, s = ds ++ r /\ two ds v.
Proof. apply scan_exact_ok. lia. Qed.

Lemma scan_two_ok s r v : scan_two s = Ok (r, v) <-> exists ds, s = ds ++ r /\ two ds v.
Proof.
  unfold scan_two. split.
  - destruct s as [|a [|b s]]; try discriminate.
    destruct (is_ascii_digit a) eqn:Ea; [|discriminate].
    destruct (is_ascii_digit b) eqn:Eb; [|discriminate]. cbn [andb]. intros [= <- <-].
    exists [a; b]. split; auto. split; auto. apply num_iff. cbn. rewrite Ea, Eb. repeat split; auto; discriminate.
  - intros (ds & -> & Hn & L). destruct ds as [|a [|b [|]]]; try discriminate L. cbn [app].
    apply num_iff in Hn as (_ & F & V). cbn in F. apply andb_true_iff in F as [-> F].
    apply andb_true_iff in F as [-> _]. cbn [andb]. rewrite V. reflexivity.
Qed.

Lemma digits_val_lt ds : forallb is_ascii_digit ds = true ->
  digits_val ds < 10 ^ N.of_nat (List.length ds).
Proof. apply digits_val_bound. Qed.

Lemma frac_scale a b : forallb is_ascii_digit a = true -> forallb is_ascii_digit b = true ->
  (List.length a <= 9)%nat -> (List.length a = 9%nat \/ b = []) ->
  digits_val (a ++ b) * 10 ^ 9 / 10 ^ N.of_nat (List.length (a ++ b)) =
  digits_val a * 10 ^ N.of_nat (9 - List.length a).
Proof.
  intros Fa Fb L M. rewrite digits_val_app, app_length by auto.
  pose proof (digits_val_lt b Fb) as Bb.
  destruct M as [M| ->].
  - rewrite M. replace (9 - 9)%nat with 0%nat by lia. rewrite N.pow_0_r, N.mul_1_r, Nat2N.inj_add.
    change (N.of_nat 9) with 9. rewrite N.pow_add_r.
    rewrite (N.mul_comm (10 ^ 9)), N.div_mul_cancel_r; try (apply N.pow_nonzero; lia).
    rewrite N.div_add_l by (apply N.pow_nonzero; lia). rewrite (N.div_small (digits_val b)); lia.
  - cbn [List.length]. rewrite Nat.add_0_r. change (N.of_nat 0) with 0. rewrite N.pow_0_r, N.mul_1_r.
    change (digits_val []) with 0. rewrite N.add_0_r.
    assert (10 ^ 9 = 10 ^ N.of_nat (9 - List.length a) * 10 ^ N.of_nat (List.length a)) as ->.
    { rewrite <- N.pow_add_r. f_equal. lia. }
    rewrite N.mul_assoc, N.div_mul; [auto|apply N.pow_nonzero; lia].
Qed.

Lemma scan_nano_ok s r v : no_digit r ->
  scan_nanosecond s = Ok (r, v) <-> exists ds n, s = ds ++ r /\ num ds n /\
    v = n * 10 ^ 9 / 10 ^ N.of_nat (List.length ds).
Proof.
  intros D. unfold scan_nanosecond.
  split.
  - destruct (take_digits 9 s) as [a r1] eqn:E.
    pose proof E as E0. apply take_digits_spec in E as (-> & Fa & La).
    destruct a as [|c a']; [discriminate|]. set (a := c :: a') in *.
    intros [= <- <-].
    destruct (take_digits (List.length r1) r1) as [b r2] eqn:E2. cbn [snd].
    pose proof E2 as E3. apply take_digits_spec in E2 as (Er & Fb & _).
    assert (M : List.length a = 9%nat \/ b = []).
    { destruct (Nat.eq_dec (List.length a) 9); [auto|right].
      destruct b as [|x b]; [auto|]. exfalso. subst r1. cbn in Fb. apply andb_true_iff in Fb as [Fx _].
      change ((x :: b) ++ r2) with ([x] ++ (b ++ r2)) in E0. rewrite app_assoc in E0.
      clear E3. assert (exists m, take_digits 9 ((a ++ [x]) ++ b ++ r2) = (a ++ [x] ++ fst m, snd m)) as (m & Em).
      { clear E0. revert La n Fa. generalize a. clear - Fx. intros a La n Fa.
        rewrite <- app_assoc. cbn [app]. revert La n. generalize 9%nat.
        induction a as [|y a IH]; intros k La n.
        - destruct k; [cbn in n; lia|]. cbn [app take_digits]. rewrite Fx.
          destruct (take_digits k (b ++ r2)) as [u w]. exists (u, w). reflexivity.
        - destruct k; [cbn in La; lia|]. cbn [app take_digits]. cbn in Fa. apply andb_true_iff in Fa as [-> Fa].
          destruct (IH Fa k) as (m & ->); [cbn in La; lia|cbn in n; lia|]. exists m. reflexivity. }
      rewrite Em in E0. injection E0 as E0 _. apply (f_equal (@List.length N)) in E0.
      revert E0. rewrite !app_length. cbn. lia. }
    exists (a ++ b), (digits_val (a ++ b)). split; [rewrite <- app_assoc, <- Er; reflexivity|]. split.
    + apply num_iff. repeat split; [discriminate|]. rewrite forallb_app, Fa, Fb. auto.
    + symmetry. apply frac_scale; auto.
  - intros (ds & n & -> & Hn & ->). apply num_iff in Hn as (N0 & F & <-).
    assert (exists a b, ds = a ++ b /\ (List.length a <= 9)%nat /\ (List.length a = 9%nat \/ b = [])) as (a & b & -> & La & M).
    { exists (firstn 9 ds), (skipn 9 ds). rewrite firstn_skipn. split; auto.
      rewrite firstn_length. split; [lia|].
      destruct (Nat.le_gt_cases 9 (List.length ds)); [left; lia|right]. apply skipn_all2. lia. }
    rewrite forallb_app in F. apply andb_true_iff in F as [Fa Fb].
    rewrite <- app_assoc, take_digits_app; auto.
    + destruct a as [|c a'].
      { destruct M as [M| ->]; [discriminate M|]. exfalso; apply N0; reflexivity. }
      set (a := c :: a') in *.
      rewrite frac_scale by auto.
      rewrite take_digits_app; auto; rewrite app_length; lia.
    + destruct M as [M| ->]; [auto|right]. auto.
Qed.

Lemma fraction_bound fs x : fraction fs x -> (0 <= x < 10 ^ 9)%Z.
Proof.
  intros H. destruct H as [|ds n Hn]; [lia|]. apply num_iff in Hn as (_ & F & <-).
  pose proof (digits_val_lt ds F) as B. set (k := List.length ds) in *. clearbody k.
  assert (Z.of_N (10 ^ N.of_nat k) = 10 ^ Z.of_nat k)%Z as E.
  { rewrite N2Z.inj_pow. f_equal. lia. }
  assert (0 < 10 ^ Z.of_nat k)%Z by (apply Z.pow_pos_nonneg; lia).
  split; [apply Z.div_pos; lia|]. apply Z.div_lt_upper_bound; [lia|].
  rewrite (Z.mul_comm (10 ^ Z.of_nat k)). rewrite (Z.mul_comm (Z.of_N _)).
  apply Z.mul_lt_mono_pos_l; lia.
Qed.

Lemma fraction_cons_dot fs x : fraction fs x -> fs = [] \/ exists r, fs = chr "." :: r.
Proof. intros H. destruct H; [auto|right]. exists ds. reflexivity. Qed.

Lemma scan_fraction_ok s r v : no_digit r -> ~ (exists t, r = chr "." :: t) ->
  match strip_prefix (chr ".") s with
  | Some r => scan_nanosecond r
  | None => Ok (s, 0%N)
  end = Ok (r, v) <-> exists fs, s = fs ++ r /\ fraction fs (Z.of_N v).
Proof.
  intros D ND.
  assert (ZE : forall n ds, (Z.of_N (n * 10 ^ 9 / 10 ^ N.of_nat (List.length (ds : str))) =
     Z.of_N n * 10 ^ 9 / 10 ^ Z.of_nat (List.length ds))%Z).
  { intros n ds. rewrite N2Z.inj_div, N2Z.inj_mul, !N2Z.inj_pow. do 2 f_equal. lia. }
  destruct (strip_prefix (chr ".") s) as [t|] eqn:E.
  - apply strip_prefix_spec in E as ->. rewrite scan_nano_ok by auto. split.
    + intros (ds & n & -> & Hn & ->). exists (lit "." ++ ds). split; auto.
      rewrite ZE. constructor; auto.
    + intros (fs & E & Hf). remember (Z.of_N v) as x. destruct Hf as [|ds n Hn].
      * cbn in E. exfalso. apply ND. eauto.
      * change ((lit "." ++ ds) ++ r) with (chr "." :: (ds ++ r)) in E. injection E as ->.
        exists ds, n. repeat split; auto. rewrite <- ZE in Heqx. lia.
  - split.
    + intros [= <- <-]. exists []. split; auto. constructor.
    + intros (fs & -> & Hf). remember (Z.of_N v) as x. destruct Hf as [|ds n Hn].
      * cbn [app]. f_equal. f_equal. lia.
      * exfalso. assert (strip_prefix (chr ".") ((lit "." ++ ds) ++ r) = Some (ds ++ r)) as E'
          by (apply strip_prefix_spec; reflexivity). congruence.
Qed.

Lemma scan_offset_ok s r off :
  scan_offset s = Ok (r, off) /\ (-86340 <= off <= 86340)%Z <->
  exists z, s = z ++ r /\ stamp_zone z off.
Proof.
  unfold scan_offset. split.
  - intros [H R]. destruct s as [|c s]; [discriminate|].
    destruct (N.eqb_spec c (chr "Z")) as [->|].
    { cbn [orb] in H. injection H as <- <-. exists (lit "Z"). split; auto. apply sz_utc. }
    destruct (N.eqb_spec c (chr "z")) as [->|].
    { cbn [orb] in H. injection H as <- <-. exists (lit "z"). split; auto. apply sz_utc'. }
    cbn [orb] in H.
    destruct (negb ((c =? chr "+") || (c =? chr "-") || (c =? 8722))) eqn:Ec; [discriminate|].
    rewrite bind_ok in H. destruct H as ([s1 h] & H1 & H). apply scan_two_ok in H1 as (hs & -> & Hh).
    rewrite bind_ok in H. destruct H as (s2 & H2 & H). apply scan_char_ok in H2 as ->.
    rewrite bind_ok in H. destruct H as ([s3 m] & H3 & H). apply scan_two_ok in H3 as (ms & -> & Hm).
    destruct (N.leb_spec 60 m); [discriminate|]. injection H as <- Eoff.
    assert (Hh24 : h < 24).
    { destruct (c =? chr "+"); lia. }
    exists (c :: hs ++ lit ":" ++ ms). split.
    { cbn [app]. rewrite <- !app_assoc. reflexivity. }
    destruct (N.eqb_spec c (chr "+")) as [->|].
    + apply sz_east. exists hs, ms, h, m. repeat (split; [auto; fail|]). lia.
    + destruct (N.eqb_spec c (chr "-")) as [->|].
      * replace off with (- Z.of_N (3600 * h + 60 * m))%Z by lia.
        apply sz_west. exists hs, ms, h, m. repeat (split; [auto; fail|]). lia.
      * destruct (N.eqb_spec c 8722) as [->|]; [|discriminate Ec].
        replace off with (- Z.of_N (3600 * h + 60 * m))%Z by lia.
        apply sz_minus. exists hs, ms, h, m. repeat (split; [auto; fail|]). lia.
  - intros (z & -> & Hz).
    assert (K : forall sg hs ms h m, sg = chr "+" \/ sg = chr "-" \/ sg = 8722 -> two hs h -> two ms m ->
      h < 24 -> m < 60 -> scan_offset ((sg :: hs ++ lit ":" ++ ms) ++ r) =
      Ok (r, if sg =? chr "+" then Z.of_N (3600 * h + 60 * m) else (- Z.of_N (3600 * h + 60 * m))%Z)).
    { intros sg hs ms h m Hsg Hh Hm Lh Lm. unfold scan_offset. cbn [app].
      assert ((sg =? chr "Z") || (sg =? chr "z") = false) as ->.
      { destruct Hsg as [->|[->| ->]]; reflexivity. }
      assert (negb ((sg =? chr "+") || (sg =? chr "-") || (sg =? 8722)) = false) as ->.
      { destruct Hsg as [->|[->| ->]]; reflexivity. }
      rewrite <- !app_assoc. rewrite (proj2 (scan_two_ok _ (lit ":" ++ ms ++ r) h)) by eauto.
      cbn [bind]. rewrite (proj2 (scan_char_ok _ _ (ms ++ r))) by reflexivity.
      cbn [bind]. rewrite (proj2 (scan_two_ok _ r m)) by eauto. cbn [bind].
      destruct (N.leb_spec 60 m); [lia|]. f_equal. f_equal. destruct (sg =? chr "+"); lia. }
    destruct Hz as [| |s z H|s z H|s z H]; [split; [reflexivity|lia]|split; [reflexivity|lia]| | |];
    destruct H as (hs & ms & h & m & -> & Hh & Hm & Lh & Lm & ->).
    + split; [|lia]. apply (K (chr "+")); auto.
    + split; [|lia]. apply (K (chr "-")); auto.
    + split; [|lia]. apply (K 8722); auto.
Qed.

Lemma stamp_zone_head z off r : stamp_zone z off -> no_digit (z ++ r) /\ ~ (exists t, z ++ r = chr "." :: t).
Proof.
  assert (K : forall c t, is_ascii_digit c = false -> c <> chr "." ->
     no_digit (c :: t) /\ ~ (exists u, c :: t = chr "." :: u)).
  { intros c t Hc Hd. split; [apply no_digit_cons; auto|]. intros (u & [= E _]). auto. }
  intros H. destruct H as [| |s z H|s z H|s z H];
  [ apply K; [reflexivity|discriminate] | apply K; [reflexivity|discriminate] | | | ];
  destruct H as (hs & ms & h & m & -> & _); apply K; (reflexivity || discriminate).
Qed.

Lemma east_opt_ok off : (-86340 <= off <= 86340)%Z -> east_opt off = Some off.
Proof. intros H. unfold east_opt. destruct ((-86400 <? off) && (off <? 86400))%Z eqn:E; [auto|lia]. Qed.

Lemma rfc3339_ok lo hi s v : parse_from_rfc3339 lo hi s = Ok v <->
  exists body zone, s = body ++ zone /\
    dt_body lo hi body (n_year (dt_date v)) (n_month (dt_date v)) (n_day (dt_date v))
      (n_hour (dt_time v)) (n_min (dt_time v)) (n_sec (dt_time v)) (n_nano (dt_time v)) /\
    stamp_zone zone (dt_off v).
Proof.
  unfold parse_from_rfc3339. split.
  - rewrite bind_ok. intros ([s1 y] & H1 & H). apply scan_exact_ok in H1 as (ys & -> & Hy); [|lia].
    rewrite bind_ok in H. destruct H as (s2 & H2 & H). apply scan_char_ok in H2 as ->.
    rewrite bind_ok in H. destruct H as ([s3 m] & H3 & H). apply scan_two_num in H3 as (ms & -> & Hm).
    rewrite bind_ok in H. destruct H as (s4 & H4 & H). apply scan_char_ok in H4 as ->.
    rewrite bind_ok in H. destruct H as ([s5 d] & H5 & H). apply scan_two_num in H5 as (ds & -> & Hd).
    destruct s5 as [|c s5]; [discriminate|].
    destruct (negb ((c =? chr "t") || (c =? chr "T") || (c =? chr " "))) eqn:Ec; [discriminate|].
    rewrite bind_ok in H. destruct H as ([s6 h] & H6 & H). apply scan_two_num in H6 as (hs & -> & Hh).
    rewrite bind_ok in H. destruct H as (s7 & H7 & H). apply scan_char_ok in H7 as ->.
    rewrite bind_ok in H. destruct H as ([s8 mi] & H8 & H). apply scan_two_num in H8 as (mis & -> & Hmi).
    rewrite bind_ok in H. destruct H as (s9 & H9 & H). apply scan_char_ok in H9 as ->.
    rewrite bind_ok in H. destruct H as ([s10 sc] & H10 & H). apply scan_two_num in H10 as (ss & -> & Hs).
    rewrite bind_ok in H. destruct H as ([s11 na] & H11 & H).
    rewrite bind_ok in H. destruct H as ([s12 off] & H12 & H).
    destruct (negb ((-86340 <=? off) && (off <=? 86340))%Z) eqn:Eo; [discriminate|].
    destruct s12; [|discriminate].
    rewrite bind_ok in H. destruct H as (dd & Hdd & H). apply ok_or_ok, from_ymd_ok in Hdd as [Hcal ->].
    rewrite bind_ok in H. destruct H as (tt & Htt & H). apply ok_or_ok in Htt.
    rewrite bind_ok in H. destruct H as (off' & Hoff & [= <-]). apply ok_or_ok in Hoff.
    rewrite east_opt_ok in Hoff by lia. injection Hoff as <-.
    assert (Hz : exists z, s11 = z ++ [] /\ stamp_zone z off) by (apply scan_offset_ok; split; [auto|lia]).
    destruct Hz as (z & -> & Hz). rewrite app_nil_r in H11. pose proof (stamp_zone_head z off [] Hz) as [D1 D2].
    rewrite app_nil_r in D1, D2.
    apply scan_fraction_ok in H11 as (fs & -> & Hf); auto.
    pose proof (fraction_bound _ _ Hf) as Hfb.
    apply to_naive_time_ok in Htt as (Eh & Emi & Hck); [|lia|lia|lia|lia].
    exists (ys ++ lit "-" ++ ms ++ lit "-" ++ ds ++ [c] ++ hs ++ lit ":" ++ mis ++ lit ":" ++ ss ++ fs), z.
    cbn [dt_date dt_time dt_off n_year n_month n_day].
    split.
    { rewrite <- !app_assoc. reflexivity. }
    split; [|auto].
    exists ys, ms, ds, c, hs, mis, ss, fs, y, m, d, h, mi, sc, (Z.of_N na).
    rewrite Eh, Emi. do 4 (split; [auto; fail|]).
    split.
    { destruct (N.eqb_spec c (chr "t")); auto. destruct (N.eqb_spec c (chr "T")); auto.
      destruct (N.eqb_spec c (chr " ")); auto. discriminate. }
    do 10 (split; [auto; fail|]). exact Hck.
  - intros (body & z & -> & H & Hz).
    destruct H as (ys & ms & ds & c & hs & mis & ss & fs & y & m & d & h & mi & sc & na &
      -> & Hy & Hm & Hd & Hc & Hh & Hmi & Hs & Hf & Ey & Em & Ed & Hcal & Eh & Emi & Hck).
    rewrite <- !app_assoc.
    rewrite (proj2 (scan_exact_ok 4 _ _ y ltac:(lia))) by eauto. cbn [bind].
    rewrite (proj2 (scan_char_ok _ _ _)) by reflexivity. cbn [bind].
    rewrite (proj2 (scan_two_num _ _ m)) by eauto. cbn [bind].
    rewrite (proj2 (scan_char_ok _ _ _)) by reflexivity. cbn [bind].
    rewrite (proj2 (scan_two_num _ _ d)) by eauto. cbn [bind]. cbn [app].
    assert (negb ((c =? chr "t") || (c =? chr "T") || (c =? chr " ")) = false) as ->
      by (destruct Hc as [->|[->| ->]]; reflexivity).
    rewrite (proj2 (scan_two_num _ _ h)) by eauto. cbn [bind].
    rewrite (proj2 (scan_char_ok _ _ _)) by reflexivity. cbn [bind].
    rewrite (proj2 (scan_two_num _ _ mi)) by eauto. cbn [bind].
    rewrite (proj2 (scan_char_ok _ _ _)) by reflexivity. cbn [bind].
    rewrite (proj2 (scan_two_num _ _ sc)) by eauto. cbn [bind].
    pose proof (stamp_zone_head z _ [] Hz) as [D1 D2]. rewrite app_nil_r in D1, D2.
    pose proof (fraction_bound _ _ Hf) as Hfb.
    rewrite (proj2 (scan_fraction_ok _ z (Z.to_N na) D1 D2)).
    2:{ exists fs. split; auto. replace (Z.of_N (Z.to_N na)) with na by lia. auto. }
    cbn [bind].
    assert (scan_offset z = Ok ([], dt_off v) /\ (-86340 <= dt_off v <= 86340)%Z) as [Ho Hr].
    { apply scan_offset_ok. exists z. rewrite app_nil_r. auto. }
    rewrite Ho. cbn [bind].
    destruct (negb ((-86340 <=? dt_off v) && (dt_off v <=? 86340))%Z) eqn:Eo; [lia|].
    rewrite <- Ey, <- Em, <- Ed, <- Eh, <- Emi.
    rewrite (proj2 (from_ymd_ok lo hi _ _ _ (dt_date v))) by (split; [auto|destruct (dt_date v); auto]).
    cbn [ok_or bind].
    assert (to_naive_time (n_hour (dt_time v)) (n_min (dt_time v)) (Z.of_N sc) (Z.of_N (Z.to_N na)) = Some (dt_time v)) as ->.
    { apply to_naive_time_ok; try lia. replace (Z.of_N (Z.to_N na)) with na by lia. auto. }
    cbn [ok_or bind]. rewrite east_opt_ok by lia. cbn [ok_or bind]. destruct v; auto.
Qed.

Lemma dt_body_count lo hi s y mo d h mi sec nan : dt_body lo hi s y mo d h mi sec nan ->
  count (chr "-") s = 2%nat /\ count (chr "+") s = 0%nat /\ ~ In (chr "Z") s.
Proof.
  intros (ys & ms & ds & c & hs & mis & ss & fs & ny & nm & nd & nh & nmi & ns & na &
      -> & Hy & Hm & Hd & Hc & Hh & Hmi & Hs & Hf & _).
  assert (T : forall t n x, two t n -> is_ascii_digit x = false -> count x t = 0%nat).
  { intros t n x Ht Hx. apply count_not_in. eapply two_not_in; eauto. }
  assert (Y : forall x, is_ascii_digit x = false -> count x ys = 0%nat).
  { intros x Hx. apply count_not_in. destruct Hy as [Hy _]. eapply num_not_in; eauto. }
  assert (Fr : forall x, is_ascii_digit x = false -> x <> chr "." -> count x fs = 0%nat).
  { intros x Hx Hd'. destruct Hf as [|fd fn Hfn]; [reflexivity|].
    change (lit "." ++ fd) with (chr "." :: fd). cbn [count].
    destruct (N.eqb_spec x (chr ".")); [contradiction|]. apply count_not_in. eapply num_not_in; eauto. }
  assert (K : forall x, is_ascii_digit x = false -> x <> chr "." ->
    count x (ys ++ lit "-" ++ ms ++ lit "-" ++ ds ++ [c] ++ hs ++ lit ":" ++ mis ++ lit ":" ++ ss ++ fs) =
    (2 * count x (lit "-") + count x [c] + 2 * count x (lit ":"))%nat).
  { intros x Hx Hd'. rewrite !count_app, Y, (T ms nm), (T ds nd), (T hs nh), (T mis nmi), (T ss ns), Fr by auto. lia. }
  rewrite !K by (reflexivity || discriminate). split; [|split].
  - destruct Hc as [->|[->| ->]]; reflexivity.
  - destruct Hc as [->|[->| ->]]; reflexivity.
  - apply count_0_not_in. rewrite K by (reflexivity || discriminate).
    destruct Hc as [->|[->| ->]]; reflexivity.
Qed.

Lemma zone_hm_tail sg s z x : zone_hm sg s z -> is_ascii_digit x = false -> x <> chr ":" ->
  count x s = count x sg.
Proof.
  intros (hs & ms & h & m & -> & Hh & Hm & _) Hx Hc.
  rewrite !count_app. rewrite (count_not_in x hs) by (eapply two_not_in; eauto).
  rewrite (count_not_in x ms) by (eapply two_not_in; eauto).
  change (lit ":") with [chr ":"]. cbn [count]. destruct (N.eqb_spec x (chr ":")); [contradiction|]. lia.
Qed.

Lemma zone_hm_last sg s z : zone_hm sg s z -> exists p c, s = p ++ [c] /\ is_ascii_digit c = true.
Proof.
  intros (hs & ms & h & m & -> & Hh & Hm & _). destruct Hm as [Hm L].
  apply num_iff in Hm as (_ & F & _). destruct ms as [|a [|b [|]]]; try discriminate L.
  exists (sg ++ hs ++ lit ":" ++ [a]), b. split; [rewrite <- !app_assoc; reflexivity|].
  cbn in F. apply andb_true_iff in F as [_ F]. apply andb_true_iff in F as [F _]. auto.
Qed.

Lemma datetime_ok lo hi s v : datetime_from_str lo hi s = Ok v <->
  exists body zone, s = body ++ zone /\
    dt_body lo hi body (n_year (dt_date v)) (n_month (dt_date v)) (n_day (dt_date v))
      (n_hour (dt_time v)) (n_min (dt_time v)) (n_sec (dt_time v)) (n_nano (dt_time v)) /\
    dt_zone zone (dt_off v).
Proof.
  unfold datetime_from_str.
  destruct (match strip_suffix (chr "Z") s with Some _ => true | None => false end
    || contains (chr "+") s || (count (chr "-") s =? 3)%nat) eqn:E.
  - rewrite rfc3339_ok. split.
    + intros (b & z & -> & Hb & Hz). exists b, z. repeat split; auto.
      pose proof (dt_body_count _ _ _ _ _ _ _ _ _ _ Hb) as (C1 & C2 & C3).
      rewrite contains_count, !count_app, C1, C2 in E.
      destruct Hz as [| |z o H|z o H|z o H].
      * apply dz_utc.
      * exfalso. destruct (strip_suffix (chr "Z") (b ++ lit "z")) eqn:ES; [|discriminate E].
        apply strip_suffix_spec in ES. change (lit "z") with [chr "z"] in ES.
        apply app_inj_tail in ES as [_ ES]. discriminate ES.
      * apply dz_east; auto.
      * apply dz_west; auto.
      * exfalso. rewrite !(zone_hm_tail _ _ _ _ H) in E by (reflexivity || discriminate).
        destruct (strip_suffix (chr "Z") (b ++ z)) as [p|] eqn:ES; [|discriminate E].
        apply strip_suffix_spec in ES. destruct (zone_hm_last _ _ _ H) as (q & c & -> & Hc).
        rewrite app_assoc in ES. apply app_inj_tail in ES as [_ ->]. discriminate Hc.
    + intros (b & z & -> & Hb & Hz). exists b, z. repeat split; auto.
      pose proof (dt_body_count _ _ _ _ _ _ _ _ _ _ Hb) as (C1 & C2 & C3).
      destruct Hz as [| |z o H|z o H].
      * exfalso. rewrite app_nil_r, contains_count, C1, C2 in E.
        destruct (strip_suffix (chr "Z") b) eqn:ES; [|discriminate E].
        apply strip_suffix_spec in ES as ->. apply C3, in_or_app. right. left. auto.
      * apply sz_utc.
      * apply sz_east; auto.
      * apply sz_west; auto.
  - rewrite rfc3339_ok. split.
    + intros (b & z & Es & Hb & Hz).
      destruct Hz as [| |z o H|z o H|z o H].
      * apply app_inj_tail in Es as [-> _]. exists b, []. rewrite app_nil_r. repeat split; auto. apply dz_none.
      * change (lit "z") with [chr "z"] in Es. change (lit "Z") with [chr "Z"] in Es.
        apply app_inj_tail in Es as [_ Es]. discriminate Es.
      * exfalso. destruct (zone_hm_last _ _ _ H) as (q & c & -> & Hc). rewrite app_assoc in Es.
        change (lit "Z") with [chr "Z"] in Es. apply app_inj_tail in Es as [_ <-]. discriminate Hc.
      * exfalso. destruct (zone_hm_last _ _ _ H) as (q & c & -> & Hc). rewrite app_assoc in Es.
        change (lit "Z") with [chr "Z"] in Es. apply app_inj_tail in Es as [_ <-]. discriminate Hc.
      * exfalso. destruct (zone_hm_last _ _ _ H) as (q & c & -> & Hc). rewrite app_assoc in Es.
        change (lit "Z") with [chr "Z"] in Es. apply app_inj_tail in Es as [_ <-]. discriminate Hc.
    + intros (b & z & -> & Hb & Hz).
      pose proof (dt_body_count _ _ _ _ _ _ _ _ _ _ Hb) as (C1 & C2 & C3).
      destruct Hz as [| |z o H|z o H].
      * exists b, (lit "Z"). rewrite app_nil_r. repeat split; auto. apply sz_utc.
      * exfalso. assert (strip_suffix (chr "Z") (b ++ lit "Z") = Some b) as ES
          by (apply strip_suffix_spec; reflexivity). rewrite ES in E. discriminate E.
      * exfalso. rewrite contains_count, !count_app, C1, C2, !(zone_hm_tail _ _ _ _ H) in E by (reflexivity || discriminate).
        destruct (strip_suffix (chr "Z") (b ++ z)); discriminate E.
      * exfalso. rewrite contains_count, !count_app, C1, C2, !(zone_hm_tail _ _ _ _ H) in E by (reflexivity || discriminate).
        destruct (strip_suffix (chr "Z") (b ++ z)); discriminate E.
Qed.

Lemma stamp_ok lo hi s v : stamp_from_str lo hi s = Ok v <->
  exists body zone, s = body ++ zone /\
    dt_body lo hi body (n_year (dt_date v)) (n_month (dt_date v)) (n_day (dt_date v))
      (n_hour (dt_time v)) (n_min (dt_time v)) (n_sec (dt_time v)) (n_nano (dt_time v)) /\
    stamp_zone zone (dt_off v).
Proof.
  rewrite <- rfc3339_ok. unfold stamp_from_str. destruct (parse_from_rfc3339 lo hi s); tauto.
Qed.

Lemma rfc3339_no_panic lo hi s : parse_from_rfc3339 lo hi s <> Panic.
Proof.
  unfold parse_from_rfc3339, scan_nanosecond, scan_offset, scan_two. intros H. nopanic.
Qed.

Lemma fraction_pad k x : (0 <= x)%Z -> (x < 10 ^ Z.of_nat k)%Z -> (1 <= k <= 9)%nat ->
  fraction (chr "." :: pad k (Z.to_N x)) (x * 10 ^ Z.of_nat (9 - k)).
Proof.
  intros H0 H1 K.
  assert (L : List.length (pad k (Z.to_N x)) = k).
  { apply pad_length; [|lia].
    assert (Z.of_N (10 ^ N.of_nat k) = 10 ^ Z.of_nat k)%Z by (rewrite N2Z.inj_pow; f_equal; lia). lia. }
  pose proof (frac_some (pad k (Z.to_N x)) (Z.to_N x) (num_pad k _)) as F. rewrite L in F.
  replace (x * 10 ^ Z.of_nat (9 - k))%Z with (Z.of_N (Z.to_N x) * 10 ^ 9 / 10 ^ Z.of_nat k)%Z; [exact F|].
  replace (Z.of_N (Z.to_N x)) with x by lia.
  assert (10 ^ 9 = 10 ^ Z.of_nat (9 - k) * 10 ^ Z.of_nat k)%Z as ->.
  { rewrite <- Z.pow_add_r by lia. f_equal. lia. }
  rewrite Z.mul_assoc, Z.div_mul; [auto|]. apply Z.pow_nonzero; lia.
Qed.

Lemma format_nano_fraction n : (0 <= n < 10 ^ 9)%Z -> fraction (format_nano n) n.
Proof.
  change (10 ^ 9)%Z with 1000000000%Z. intros H. unfold format_nano.
  destruct (Z.eqb_spec n 0) as [->|]; [constructor|].
  destruct (Z.eqb_spec (n mod 1000000) 0).
  - replace n with (n / 1000000 * 10 ^ Z.of_nat (9 - 3))%Z at 2.
    + apply fraction_pad; [lia| |lia]. change (10 ^ Z.of_nat 3)%Z with 1000%Z. lia.
    + change (10 ^ Z.of_nat (9 - 3))%Z with 1000000%Z. lia.
  - destruct (Z.eqb_spec (n mod 1000) 0).
    + replace n with (n / 1000 * 10 ^ Z.of_nat (9 - 6))%Z at 2.
      * apply fraction_pad; [lia| |lia]. change (10 ^ Z.of_nat 6)%Z with 1000000%Z. lia.
      * change (10 ^ Z.of_nat (9 - 6))%Z with 1000%Z. lia.
    + replace n with (n * 10 ^ Z.of_nat (9 - 9))%Z at 2.
      * apply fraction_pad; [lia| |lia]. change (10 ^ Z.of_nat 9)%Z with 1000000000%Z. lia.
      * change (10 ^ Z.of_nat (9 - 9))%Z with 1%Z. lia.
Qed.

Lemma format_offset_zone z : fixed_offset z -> (z mod 60 = 0)%Z -> dt_zone (format_offset z) z.
Proof.
  intros F M. unfold format_offset, fixed_offset in *.
  remember ((Z.abs z + 30) / 60)%Z as q.
  assert (Eq : (60 * q = Z.abs z)%Z) by lia.
  assert (Z0 : forall sg, zone_hm [sg] (sg :: pad 2 (Z.to_N (q / 60)) ++ lit ":" ++ pad 2 (Z.to_N (q mod 60))) (Z.abs z)).
  { intros sg. exists (pad 2 (Z.to_N (q / 60))), (pad 2 (Z.to_N (q mod 60))), (Z.to_N (q / 60)), (Z.to_N (q mod 60)).
    split; [reflexivity|]. split; [apply two_pad; lia|]. split; [apply two_pad; lia|]. lia. }
  destruct (Z.ltb_spec z 0).
  - replace z with (- Z.abs z)%Z at 1 by lia. apply dz_west. apply (Z0 (chr "-")).
  - replace z with (Z.abs z)%Z at 1 by lia. apply dz_east. apply (Z0 (chr "+")).
Qed.

Lemma dt_zone_mod s z : dt_zone s z -> (z mod 60 = 0)%Z.
Proof.
  intros H. destruct H as [| |s z H|s z H]; try reflexivity;
  destruct H as (hs & ms & h & m & -> & _ & _ & _ & _ & ->); lia.
Qed.
Lemma stamp_zone_mod s z : stamp_zone s z -> (z mod 60 = 0)%Z.
Proof.
  intros H. destruct H as [| |s z H|s z H|s z H]; try reflexivity;
  destruct H as (hs & ms & h & m & -> & _ & _ & _ & _ & ->); lia.
Qed.

Definition datetime_value (lo hi : Z) (v : datetime) : Prop :=
  calendar lo hi (n_year (dt_date v)) (n_month (dt_date v)) (n_day (dt_date v)) /\
  clock_value (n_hour (dt_time v)) (n_min (dt_time v)) (n_sec (dt_time v)) (n_nano (dt_time v)) /\
  fixed_offset (dt_off v).

Lemma display_head v : ~ (0 <= n_year (dt_date v) <= 9999)%Z ->
  exists c t, datetime_display v = c :: t /\ is_ascii_digit c = false.
Proof.
  intros H. unfold datetime_display, format_date, format_year.
  destruct ((0 <=? n_year (dt_date v)) && (n_year (dt_date v) <=? 9999))%Z eqn:E; [lia|].
  eexists _, _. split; [reflexivity|]. destruct (_ <? _)%Z; reflexivity.
Qed.

Lemma dt_body_head lo hi s y mo d h mi sec nan c t : dt_body lo hi s y mo d h mi sec nan ->
  forall r, s ++ r = c :: t -> is_ascii_digit c = true.
Proof.
  intros (ys & ms & ds & c' & hs & mis & ss & fs & ny & nm & nd & nh & nmi & ns & na &
      -> & [Hy L] & _) r E.
  destruct ys as [|x ys]; [discriminate L|]. injection E as <- _. eapply num_head; eauto.
Qed.

Lemma dt_body_clock lo hi s y mo d h mi sec nan : dt_body lo hi s y mo d h mi sec nan ->
  (nan < 10 ^ 9 \/ sec = 59)%Z.
Proof.
  intros (ys & ms & ds & c' & hs & mis & ss & fs & ny & nm & nd & nh & nmi & ns & na &
      -> & Hy & Hm & Hd & Hc & Hh & Hmi & Hs & Hf & _ & _ & _ & _ & _ & _ & Hk).
  apply fraction_bound in Hf. unfold clock in Hk. lia.
Qed.

Lemma datetime_display_body lo hi v : datetime_value lo hi v -> (0 <= n_year (dt_date v) <= 9999)%Z ->
  (n_nano (dt_time v) < 10 ^ 9 \/ n_sec (dt_time v) = 59)%Z ->
  exists body, datetime_display v = body ++ format_offset (dt_off v) /\
    dt_body lo hi body (n_year (dt_date v)) (n_month (dt_date v)) (n_day (dt_date v))
      (n_hour (dt_time v)) (n_min (dt_time v)) (n_sec (dt_time v)) (n_nano (dt_time v)).
Proof.
  intros (Hcal & Hck & Hoff) Hy Hl.
  pose proof (days_in_month_31 (n_year (dt_date v)) (n_month (dt_date v))) as D31.
  pose proof Hcal as (_ & Hm & Hd). destruct Hck as (Hh & Hmi & Hs & Hn).
  pose proof (div_1e9 _ Hn) as Dv.
  assert (Hq : (n_nano (dt_time v) mod 1000000000 = n_nano (dt_time v) - 10 ^ 9 * (n_nano (dt_time v) / 10 ^ 9))%Z)
    by (change (10 ^ 9)%Z with 1000000000%Z; lia).
  exists (format_date (dt_date v) ++ lit "T" ++ format_time (dt_time v) ++ format_nano (n_nano (dt_time v) mod 1000000000)).
  split; [unfold datetime_display; rewrite <- !app_assoc; reflexivity|].
  exists (pad 4 (Z.to_N (n_year (dt_date v)))), (pad 2 (Z.to_N (n_month (dt_date v)))),
    (pad 2 (Z.to_N (n_day (dt_date v)))), (chr "T"), (pad 2 (Z.to_N (n_hour (dt_time v)))),
    (pad 2 (Z.to_N (n_min (dt_time v)))), (pad 2 (Z.to_N (n_sec (dt_time v) + n_nano (dt_time v) / 10 ^ 9))),
    (format_nano (n_nano (dt_time v) mod 1000000000)),
    (Z.to_N (n_year (dt_date v))), (Z.to_N (n_month (dt_date v))), (Z.to_N (n_day (dt_date v))),
    (Z.to_N (n_hour (dt_time v))), (Z.to_N (n_min (dt_time v))),
    (Z.to_N (n_sec (dt_time v) + n_nano (dt_time v) / 10 ^ 9)),
    (n_nano (dt_time v) mod 1000000000)%Z.
  split.
  { unfold format_date, format_time, format_year.
    destruct ((0 <=? n_year (dt_date v)) && (n_year (dt_date v) <=? 9999))%Z eqn:E; [|lia].
    rewrite <- !app_assoc. reflexivity. }
  split; [split; [apply num_pad|apply pad_length; [change (10 ^ N.of_nat 4) with 10000; lia|lia]]|].
  split; [apply two_pad; lia|]. split; [apply two_pad; lia|]. split; [auto|].
  split; [apply two_pad; lia|]. split; [apply two_pad; lia|].
  split; [apply two_pad; lia|].
  split; [apply format_nano_fraction; change (10 ^ 9)%Z with 1000000000%Z; lia|].
  split; [lia|]. split; [lia|]. split; [lia|]. split; [exact Hcal|].
  split; [lia|]. split; [lia|]. rewrite Hq. unfold clock. clear Hq.
  remember (n_nano (dt_time v) / 10 ^ 9)%Z as q. clear Heqq. lia.
Qed.

Lemma datetime_round_trip lo hi v : datetime_value lo hi v ->
  datetime_from_str lo hi (datetime_display v) = Ok v <->
  (0 <= n_year (dt_date v) <= 9999 /\ dt_off v mod 60 = 0 /\
   (n_nano (dt_time v) < 10 ^ 9 \/ n_sec (dt_time v) = 59))%Z.
Proof.
  intros Hv. split.
  - intros H. apply datetime_ok in H as (b & z & E & Hb & Hz). split; [|split].
    + destruct (Z.ltb_spec (n_year (dt_date v)) 0) as [L|L];
      [|destruct (Z.ltb_spec 9999 (n_year (dt_date v))) as [L'|L']; [|lia]];
      (destruct (display_head v) as (c & t & E' & Hc); [lia|]; rewrite E' in E; symmetry in E;
       pose proof (dt_body_head _ _ _ _ _ _ _ _ _ _ c t Hb _ E); congruence).
    + eapply dt_zone_mod; eauto.
    + eapply dt_body_clock; eauto.
  - intros (Hy & Ho & Hl). apply datetime_ok.
    destruct (datetime_display_body lo hi v Hv Hy Hl) as (b & E & Hb).
    exists b, (format_offset (dt_off v)). repeat split; auto.
    apply format_offset_zone; auto. apply Hv.
Qed.

Lemma stamp_round_trip lo hi v : datetime_value lo hi v ->
  stamp_from_str lo hi (datetime_display v) = Ok v <->
  (0 <= n_year (dt_date v) <= 9999 /\ dt_off v mod 60 = 0 /\
   (n_nano (dt_time v) < 10 ^ 9 \/ n_sec (dt_time v) = 59))%Z.
Proof.
  intros Hv. split.
  - intros H. apply stamp_ok in H as (b & z & E & Hb & Hz). split; [|split].
    + destruct (Z.ltb_spec (n_year (dt_date v)) 0) as [L|L];
      [|destruct (Z.ltb_spec 9999 (n_year (dt_date v))) as [L'|L']; [|lia]];
      (destruct (display_head v) as (c & t & E' & Hc); [lia|]; rewrite E' in E; symmetry in E;
       pose proof (dt_body_head _ _ _ _ _ _ _ _ _ _ c t Hb _ E); congruence).
    + eapply stamp_zone_mod; eauto.
    + eapply dt_body_clock; eauto.
  - intros (Hy & Ho & Hl). apply stamp_ok.
    destruct (datetime_display_body lo hi v Hv Hy Hl) as (b & E & Hb).
    exists b, (format_offset (dt_off v)). repeat split; auto.
    pose proof (format_offset_zone (dt_off v) (proj2 (proj2 Hv)) Ho) as Z0.
    assert (NE : format_offset (dt_off v) <> []) by discriminate.
    remember (format_offset (dt_off v)) as fo. remember (dt_off v) as off.
    destruct Z0; [congruence|apply sz_utc|apply sz_east; auto|apply sz_west; auto].
Qed.

(** ** XSD literals *)

Lemma two_item s n : two s n -> item s n.
Proof. intros [H L]. exists [], s. repeat split; auto using blank_nil. lia. Qed.

Lemma date_complete lo hi ys ms ds zs y m d tz : (lo <= 0)%Z -> (9999 <= hi)%Z ->
  (- Z.of_N i64_max <= lo)%Z -> (hi <= Z.of_N i64_max)%Z ->
  digits 4 ys y -> two ms m -> two ds d -> 1 <= m <= 12 -> 1 <= d ->
  (Z.of_N d <= days_in_month (Z.of_N y) (Z.of_N m))%Z -> tz_opt zs tz ->
  date_from_str lo hi (ys ++ lit "-" ++ ms ++ lit "-" ++ ds ++ zs) =
  Ok {| d_value := {| n_year := Z.of_N y; n_month := Z.of_N m; n_day := Z.of_N d |}; d_tz := tz |}.
Proof.
  intros L1 L2 L3 L4 [Hy Ly] Hm Hd Rm Rd Rd' Hz.
  apply date_ok; auto. exists (ys ++ lit "-" ++ ms ++ lit "-" ++ ds), zs, Unsigned.
  cbn [d_value d_tz n_year n_month n_day]. split; [rewrite <- !app_assoc; reflexivity|].
  split; [|split; [auto|exact I]].
  exists ys, ms, ds, m, d. split; [auto|]. split; [apply (yi_plain [] ys); auto using blank_nil; lia|].
  split; [apply two_item; auto|]. split; [apply two_item; auto|]. split; [auto|]. split; [auto|].
  apply num_iff in Hy as (_ & F & V). pose proof (digits_val_bound ys F) as B. rewrite Ly in B.
  change (10 ^ N.of_nat 4) with 10000 in B. unfold calendar. lia.
Qed.

Lemma time_complete hs ms ss zs h m sec tz :
  two hs h -> two ms m -> two ss sec -> h < 24 -> m < 60 -> sec < 60 -> tz_opt zs tz ->
  time_from_str (hs ++ lit ":" ++ ms ++ lit ":" ++ ss ++ zs) =
  Ok {| t_value := {| n_hour := Z.of_N h; n_min := Z.of_N m; n_sec := Z.of_N sec; n_nano := 0 |}; t_tz := tz |}.
Proof.
  intros Hh Hm Hs Lh Lm Ls Hz. apply time_ok. exists (hs ++ lit ":" ++ ms ++ lit ":" ++ ss), zs.
  cbn [t_value t_tz n_hour n_min n_sec n_nano]. split; [rewrite <- !app_assoc; reflexivity|].
  split; [|auto]. exists hs, ms, ss, h, m, sec. split; [auto|].
  split; [apply two_item; auto|]. split; [apply two_item; auto|]. split; [apply two_item; auto|].
  split; [auto|]. split; [auto|]. unfold clock. lia.
Qed.

Lemma tz_opt_dt_zone zs tz : tz_opt zs tz -> dt_zone zs (match tz with Some z => z | None => 0%Z end).
Proof.
  intros H. destruct H as [|s z H]; [apply dz_none|].
  destruct H as [|hs ms h m Hh Hm L1 L2|hs ms h m Hh Hm L1 L2]; [apply dz_utc|apply dz_east|apply dz_west];
  exists hs, ms, h, m; repeat (split; [auto; fail|]); lia.
Qed.

Lemma datetime_complete lo hi ys ms ds hs mis ss fs zs y mo d h mi sec nano tz :
  (lo <= 0)%Z -> (9999 <= hi)%Z ->
  digits 4 ys y -> two ms mo -> two ds d -> 1 <= mo <= 12 -> 1 <= d ->
  (Z.of_N d <= days_in_month (Z.of_N y) (Z.of_N mo))%Z ->
  two hs h -> two mis mi -> two ss sec -> h < 24 -> mi < 60 -> sec < 60 ->
  fraction fs nano -> tz_opt zs tz ->
  datetime_from_str lo hi
    (ys ++ lit "-" ++ ms ++ lit "-" ++ ds ++ lit "T" ++ hs ++ lit ":" ++ mis ++ lit ":" ++ ss ++ fs ++ zs) =
  Ok {| dt_date := {| n_year := Z.of_N y; n_month := Z.of_N mo; n_day := Z.of_N d |};
        dt_time := {| n_hour := Z.of_N h; n_min := Z.of_N mi; n_sec := Z.of_N sec; n_nano := nano |};
        dt_off := match tz with Some z => z | None => 0 end |}.
Proof.
  intros L1 L2 Hy Hm Hd Rm Rd Rd' Hh Hmi Hs Lh Lmi Ls Hf Hz. apply datetime_ok.
  exists (ys ++ lit "-" ++ ms ++ lit "-" ++ ds ++ lit "T" ++ hs ++ lit ":" ++ mis ++ lit ":" ++ ss ++ fs), zs.
  cbn [dt_date dt_time dt_off n_year n_month n_day n_hour n_min n_sec n_nano].
  split; [rewrite <- !app_assoc; reflexivity|]. split; [|apply tz_opt_dt_zone; auto].
  exists ys, ms, ds, (chr "T"), hs, mis, ss, fs, y, mo, d, h, mi, sec, nano.
  split; [reflexivity|]. do 3 (split; [auto; fail|]). split; [auto|]. do 7 (split; [auto; fail|]).
  split.
  { destruct Hy as [Hy Ly]. apply num_iff in Hy as (_ & F & V). pose proof (digits_val_bound ys F) as B. rewrite Ly in B.
    change (10 ^ N.of_nat 4) with 10000 in B. unfold calendar. lia. }
  split; [auto|]. split; [auto|]. unfold clock. lia.
Qed.

(** The zone heuristic against the stamp parser. *)
Lemma datetime_stamp_zone lo hi s v : stamp_from_str lo hi s = Ok v ->
  (exists p, s = p ++ lit "z") \/ In 8722 s \/ datetime_from_str lo hi s = Ok v.
Proof.
  rewrite stamp_ok, datetime_ok. intros (b & z & -> & Hb & Hz).
  remember (dt_off v) as off. destruct Hz as [| |z o H|z o H|z o H].
  - right. right. exists b, (lit "Z"). repeat split; auto. apply dz_utc.
  - left. eauto.
  - right. right. exists b, z. repeat split; auto. apply dz_east; auto.
  - right. right. exists b, z. repeat split; auto. apply dz_west; auto.
  - right. left. destruct H as (hs & ms & h & m & -> & _). apply in_or_app. right. left. auto.
Qed.

Lemma datetime_no_zone lo hi s v :
  stamp_from_str lo hi (s ++ lit "Z") = Ok v -> datetime_from_str lo hi s = Ok v.
Proof.
  rewrite datetime_ok, !stamp_ok. intros (b & z & E & Hb & Hz).
  assert (L : forall o sg, zone_hm sg z o -> False).
  { intros o sg H. destruct (zone_hm_last _ _ _ H) as (q & c & -> & Hc). rewrite app_assoc in E.
    change (lit "Z") with [chr "Z"] in E. apply app_inj_tail in E as [_ <-]. discriminate Hc. }
  remember (dt_off v) as off. destruct Hz as [| |z o H|z o H|z o H]; try (exfalso; eapply L; eauto; fail).
  - apply app_inj_tail in E as [-> _].
    exists b, []. rewrite app_nil_r. repeat split; auto. apply dz_none.
  - change (lit "z") with [chr "z"] in E. change (lit "Z") with [chr "Z"] in E.
    apply app_inj_tail in E as [_ E]. discriminate E.
Qed.

Lemma datetime_cases lo hi s v : datetime_from_str lo hi s = Ok v ->
  stamp_from_str lo hi s = Ok v \/ stamp_from_str lo hi (s ++ lit "Z") = Ok v.
Proof.
  rewrite datetime_ok, !stamp_ok. intros (b & z & -> & Hb & Hz).
  remember (dt_off v) as off. destruct Hz as [| |z o H|z o H].
  - right. exists b, (lit "Z"). rewrite app_nil_r. repeat split; auto. apply sz_utc.
  - left. exists b, (lit "Z"). repeat split; auto. apply sz_utc.
  - left. exists b, z. repeat split; auto. apply sz_east; auto.
  - left. exists b, z. repeat split; auto. apply sz_west; auto.
Qed.

Lemma datetime_no_panic lo hi s : datetime_from_str lo hi s <> Panic.
Proof. apply rfc3339_no_panic. Qed.
Lemma stamp_no_panic lo hi s : stamp_from_str lo hi s <> Panic.
Proof.
  unfold stamp_from_str. pose proof (rfc3339_no_panic lo hi s).
  destruct (parse_from_rfc3339 lo hi s); congruence.
Qed.

Lemma datetime_rejects lo hi :
  datetime_from_str lo hi (lit "-0044-03-15T00:00:00Z") = Err /\
  datetime_from_str lo hi (lit "12020-03-15T00:00:00Z") = Err /\
  datetime_from_str lo hi (lit "2020-03-15T24:00:00Z") = Err.
Proof.
  split; [reflexivity|]. split; [reflexivity|].
  match goal with |- ?x = Err => destruct x as [v| |] eqn:E; [exfalso|reflexivity|exfalso; exact (datetime_no_panic _ _ _ E)] end.
  lazy - [from_ymd_opt] in E. destruct (from_ymd_opt lo hi _ _ _); discriminate E.
Qed.
