(** Proofs about the g-types. *)
From Coq Require Import List NArith ZArith Bool Ascii String Lia.
From Coq Require Import ZifyBool ZifyNat ZifyN.
From Verif Require Import Str StrFacts SpecLex Tz TzProofs GTypes.
Import ListNotations.
Local Open Scope N_scope.
Ltac Zify.zify_post_hook ::= Z.div_mod_to_equations.

Arguments chr : simpl never.
Arguments lit : simpl never.

(** The common shape of the five [from_str] functions: value parser [pv], constructor
    [mk], number [k] of '-' inside a value. *)
Definition generic {A B} (pv : str -> res A) (mk : A -> option Z -> res B) (k : nat) (s : str) : res B :=
  match strip_suffix (chr "Z") s with
  | Some s' => bind (pv s') (fun v => mk v (Some 0%Z))
  | None =>
    if contains (chr "+") s then
      if (1 <? count (chr "+") s)%nat then Err
      else match split_before (chr "+") 0 s with
           | None => Panic
           | Some (a, b) =>
             bind (pv a) (fun v => bind (parse_timezone b) (fun tz => mk v (Some tz)))
           end
    else if (count (chr "-") s =? S k)%nat then
      match split_before (chr "-") k s with
      | None => Panic
      | Some (a, b) =>
        bind (pv a) (fun v => bind (parse_timezone b) (fun tz => mk v (Some tz)))
      end
    else bind (pv s) (fun v => mk v None)
  end.

Lemma tz_lex_sign s z : tz_lex s z ->
  s = lit "Z" /\ z = 0%Z \/
  exists c t, s = c :: t /\ (c = chr "+" \/ c = chr "-") /\
    ~ In (chr "+") t /\ ~ In (chr "-") t /\ ~ In (chr "Z") t.
Proof.
  assert (D : forall hs ms h m c, two hs h -> two ms m -> is_ascii_digit c = false ->
                c <> chr ":" -> ~ In c (hs ++ lit ":" ++ ms)).
  { intros hs ms h m c Hh Hm Hc Hc2 Hin.
    apply two_iff in Hh as (_ & Hh & _). apply two_iff in Hm as (_ & Hm & _).
    apply in_app_or in Hin as [Hin|Hin]; [exact (digits_not_in c hs Hh Hc Hin)|].
    change (lit ":" ++ ms) with (chr ":" :: ms) in Hin.
    apply in_inv in Hin as [Hin|Hin]; [congruence|]. exact (digits_not_in c ms Hm Hc Hin). }
  intros H. destruct H as [|hs ms h m Hh Hm _ _|hs ms h m Hh Hm _ _].
  - left; auto.
  - right. exists (chr "+"), (hs ++ lit ":" ++ ms). repeat split; auto;
    (eapply D; eauto; discriminate).
  - right. exists (chr "-"), (hs ++ lit ":" ++ ms). repeat split; auto;
    (eapply D; eauto; discriminate).
Qed.

Lemma bind_ok {A B} (m : res A) (f : A -> res B) b :
  bind m f = Ok b <-> exists a, m = Ok a /\ f a = Ok b.
Proof.
  destruct m; cbn [bind]; split; try discriminate; intros H.
  - eauto.
  - destruct H as (x & [= <-] & H); auto.
  - destruct H as (x & H & _); discriminate.
  - destruct H as (x & H & _); discriminate.
Qed.

Lemma bind_panic {A B} (m : res A) (f : A -> res B) :
  bind m f = Panic <-> m = Panic \/ exists a, m = Ok a /\ f a = Panic.
Proof.
  destruct m as [a| |]; cbn [bind]; split; intros H; auto.
  - eauto.
  - destruct H as [H|(x & [= <-] & H)]; [discriminate|auto].
  - discriminate.
  - destruct H as [H|(x & H & _)]; discriminate.
Qed.

Section Generic.
  Context {A B : Type} (pv : str -> res A) (mk : A -> option Z -> res B) (k : nat).
  Hypothesis pv_dash : forall v a, pv v = Ok a -> count (chr "-") v = k.
  Hypothesis pv_plus : forall v a, pv v = Ok a -> count (chr "+") v = 0%nat.
  Hypothesis pv_Z : forall v a, pv v = Ok a -> ~ In (chr "Z") v.

  Lemma generic_ok s r :
    generic pv mk k s = Ok r <->
    exists v t a tz, s = v ++ t /\ pv v = Ok a /\ tz_opt t tz /\ mk a tz = Ok r.
  Proof.
    unfold generic. split.
    - destruct (strip_suffix (chr "Z") s) as [s'|] eqn:EZ.
      + apply strip_suffix_spec in EZ as ->. rewrite bind_ok. intros (a & Ha & Hr).
        exists s', (lit "Z"), a, (Some 0%Z). repeat split; auto. constructor. constructor.
      + destruct (contains (chr "+") s) eqn:EP.
        * destruct (1 <? count (chr "+") s)%nat; [discriminate|].
          destruct (split_before (chr "+") 0 s) as [[v t]|] eqn:ES; [|discriminate].
          apply split_before_spec in ES as (-> & _ & _).
          rewrite bind_ok. intros (a & Ha & Hr). rewrite bind_ok in Hr.
          destruct Hr as (tz & Htz & Hr). apply parse_timezone_ok in Htz.
          exists v, t, a, (Some tz). repeat split; auto. constructor; auto.
        * destruct (count (chr "-") s =? S k)%nat.
          -- destruct (split_before (chr "-") k s) as [[v t]|] eqn:ES; [|discriminate].
             apply split_before_spec in ES as (-> & _ & _).
             rewrite bind_ok. intros (a & Ha & Hr). rewrite bind_ok in Hr.
             destruct Hr as (tz & Htz & Hr). apply parse_timezone_ok in Htz.
             exists v, t, a, (Some tz). repeat split; auto. constructor; auto.
          -- rewrite bind_ok. intros (a & Ha & Hr). exists s, [], a, None.
             rewrite app_nil_r. repeat split; auto. constructor.
    - intros (v & t & a & tz & -> & Ha & Htz & Hr).
      pose proof (pv_dash _ _ Ha) as Hd. pose proof (pv_plus _ _ Ha) as Hp.
      pose proof (pv_Z _ _ Ha) as HZ.
      destruct Htz as [|t z Hz].
      + rewrite app_nil_r. destruct (strip_suffix (chr "Z") v) as [p|] eqn:EZ.
        { apply strip_suffix_spec in EZ as ->. exfalso. apply HZ, in_or_app. right. left. auto. }
        rewrite contains_count, Hp. cbn [Nat.eqb negb]. rewrite Hd.
        destruct (Nat.eqb_spec k (S k)); [lia|]. rewrite Ha. exact Hr.
      + pose proof (proj2 (parse_timezone_ok t z) Hz) as Pz.
        pose proof (tz_lex_sign _ _ Hz) as [[-> ->]|(c & t' & -> & Hc & Np & Nm & NZ)].
        * assert (strip_suffix (chr "Z") (v ++ lit "Z") = Some v) as ->
            by (apply strip_suffix_spec; reflexivity).
          rewrite Ha. exact Hr.
        * assert (strip_suffix (chr "Z") (v ++ c :: t') = None) as ->.
          { apply strip_suffix_none. intros p E.
            assert (Hin : In (chr "Z") (v ++ c :: t')) by (rewrite E; apply in_or_app; right; left; auto).
            apply in_app_or in Hin as [Hin|Hin]; auto. apply in_inv in Hin as [Hin|Hin]; auto.
            destruct Hc as [-> | ->]; discriminate. }
          rewrite contains_count, !count_app, Hp, Hd. cbn [count].
          rewrite (count_not_in _ _ Np), (count_not_in _ _ Nm).
          destruct Hc as [-> | ->].
          -- change (chr "+" =? chr "+") with true. cbn -[parse_timezone split_before].
             assert (split_before (chr "+") 0 (v ++ chr "+" :: t') = Some (v, chr "+" :: t')) as ->
               by (apply split_before_spec; repeat split; eauto).
             rewrite Ha. cbn [bind]. rewrite Pz. exact Hr.
          -- change (chr "+" =? chr "-") with false. change (chr "-" =? chr "-") with true.
             cbn -[parse_timezone split_before Nat.eqb Nat.add].
             replace (k + (1 + 0) =? S k)%nat with true by (symmetry; apply Nat.eqb_eq; lia).
             assert (split_before (chr "-") k (v ++ chr "-" :: t') = Some (v, chr "-" :: t')) as ->
               by (apply split_before_spec; repeat split; eauto).
             rewrite Ha. cbn [bind]. rewrite Pz. exact Hr.
  Qed.

  (** A panic can only come from the value parser (or the constructor), on a prefix of the
      text. *)
  Lemma generic_panic s :
    generic pv mk k s = Panic ->
    exists v t, s = v ++ t /\ (pv v = Panic \/ exists a tz, pv v = Ok a /\ mk a tz = Panic).
  Proof using Type. clear pv_dash pv_plus pv_Z.
    unfold generic. destruct (strip_suffix (chr "Z") s) as [s'|] eqn:EZ.
    - apply strip_suffix_spec in EZ as ->. rewrite bind_panic.
      intros [H|(a & Ha & H)]; exists s', [chr "Z"]; split; auto. right; eauto.
    - destruct (contains (chr "+") s) eqn:EP.
      + destruct (1 <? count (chr "+") s)%nat; [discriminate|].
        destruct (split_before (chr "+") 0 s) as [[v t]|] eqn:ES.
        * apply split_before_spec in ES as (-> & _ & t' & ->).
          rewrite bind_panic. intros [H|(a & Ha & H)]; [eauto 6|].
          apply bind_panic in H as [H|(tz & Htz & H)].
          -- apply parse_timezone_panic in H as [H|(c & t & [= <- <-] & Hc)]; [discriminate|].
             exfalso; revert Hc; vm_compute; auto.
          -- exists v, (chr "+" :: t'). split; auto. right; eauto.
        * exfalso. rewrite contains_count in EP.
          destruct (split_before_some (chr "+") 0 s) as (a & b & E); [|congruence].
          destruct (count (chr "+") s); [discriminate|lia].
      + destruct (Nat.eqb_spec (count (chr "-") s) (S k)).
        * destruct (split_before (chr "-") k s) as [[v t]|] eqn:ES.
          -- apply split_before_spec in ES as (-> & _ & t' & ->).
             rewrite bind_panic. intros [H|(a & Ha & H)]; [eauto 6|].
             apply bind_panic in H as [H|(tz & Htz & H)].
             ++ apply parse_timezone_panic in H as [H|(c & t & [= <- <-] & Hc)]; [discriminate|].
                exfalso; revert Hc; vm_compute; auto.
             ++ exists v, (chr "-" :: t'). split; auto. right; eauto.
          -- exfalso. destruct (split_before_some (chr "-") k s) as (a & b & E); [lia|congruence].
        * rewrite bind_panic. intros H. exists s, []. rewrite app_nil_r. split; auto.
          destruct H as [H|(a & Ha & H)]; eauto.
  Qed.
End Generic.

(** ** Value parsers *)
Lemma num_len_2 s n : num s n -> List.length s = 2%nat -> two s n.
Proof. split; auto. Qed.

Lemma digits_no c s : forallb is_ascii_digit s = true -> is_ascii_digit c = false -> count c s = 0%nat.
Proof. apply count_digits. Qed.

Lemma gday_value_ok v d : gday_parse_value v = Ok d <->
  exists ds n, v = lit "---" ++ ds /\ two ds n /\ d = Z.of_N n.
Proof.
  unfold gday_parse_value. split.
  - destruct (byte_len v =? 5)%nat eqn:EL; [|discriminate]. cbn [negb].
    rewrite bind_ok. intros (p & Hp & H). destruct (str_eqb_spec p (lit "---")) as [->|]; [|discriminate].
    cbn [negb] in H. rewrite bind_ok in H. destruct H as (tk & Htk & H).
    destruct (forallb is_ascii_digit tk) eqn:ED; [|discriminate]. cbn [negb] in H.
    apply slice_spec in Hp as (a & b & E & Ha & _). apply byte_len_0 in Ha as ->.
    apply slice_spec in Htk as (a' & b' & E' & Ha' & Hl).
    cbn [app] in E. rewrite E in E'.
    assert (a' = lit "---" /\ b = tk ++ b') as [-> ->].
    { apply app_byte_inj in E' as [<- <-]; auto. }
    assert (b' = []) as ->.
    { apply byte_len_0. apply Nat.eqb_eq in EL. rewrite E, !byte_len_app in EL. lia. }
    rewrite app_nil_r in *. exists tk, (digits_val tk).
    assert (two tk (digits_val tk)) as T.
    { apply two_iff. rewrite Ha', byte_len_digits in Hl by auto. repeat split; auto. lia. }
    repeat split; auto; try apply T. unfold parse_i32_res in H.
    rewrite (parse_i32_two _ _ T) in H. injection H as <-. auto.
  - intros (ds & n & -> & T & ->).
    pose proof (two_shape _ _ T) as (a & b & -> & Da & Db).
    assert (byte_len (lit "---" ++ [a; b]) = 5%nat) as ->.
    { rewrite byte_len_app, (byte_len_digits [a; b]) by (cbn [forallb]; rewrite Da, Db; auto). reflexivity. }
    cbn [Nat.eqb negb].
    assert (slice (lit "---" ++ [a; b]) 0 3 = Ok (lit "---")) as ->
      by (apply slice_spec; exists [], [a; b]; auto).
    cbn [bind]. rewrite str_eqb_refl. cbn [negb].
    assert (slice (lit "---" ++ [a; b]) 3 5 = Ok [a; b]) as ->.
    { apply slice_spec. exists (lit "---"), []. split; [reflexivity|].
      rewrite (byte_len_digits [a; b]) by (cbn [forallb]; rewrite Da, Db; auto). auto. }
    cbn [bind forallb]. rewrite Da, Db. cbn [negb andb].
    unfold parse_i32_res. rewrite (parse_i32_two _ _ T). auto.
Qed.

Lemma slice_mid a m b i j :
  byte_len a = i -> (i + byte_len m)%nat = j -> slice (a ++ m ++ b) i j = Ok m.
Proof. intros <- <-. apply slice_spec. eauto. Qed.

Lemma slice_tail a m i j :
  byte_len a = i -> (i + byte_len m)%nat = j -> slice (a ++ m) i j = Ok m.
Proof. intros. rewrite <- (app_nil_r m) at 1. apply slice_mid; auto. Qed.

Lemma slice_head m b j : byte_len m = j -> slice (m ++ b) 0 j = Ok m.
Proof. intros H. exact (slice_mid [] m b 0 j eq_refl H). Qed.

Lemma two_byte_len s n : two s n -> byte_len s = 2%nat.
Proof. rewrite two_iff. intros (H1 & H2 & _). rewrite byte_len_digits; auto. Qed.

Lemma two_forallb s n : two s n -> forallb is_ascii_digit s = true.
Proof. rewrite two_iff; tauto. Qed.

Lemma parse_i32_res_two s n : two s n -> parse_i32_res s = Ok (Z.of_N n).
Proof. intros H. unfold parse_i32_res. rewrite (parse_i32_two _ _ H). auto. Qed.

Lemma gmonth_value_ok v d : gmonth_parse_value v = Ok d <->
  exists ds n, v = lit "--" ++ ds /\ two ds n /\ d = Z.of_N n.
Proof.
  unfold gmonth_parse_value. split.
  - destruct (byte_len v =? 4)%nat eqn:EL; [|discriminate]. cbn [negb].
    rewrite bind_ok. intros (p & Hp & H). destruct (str_eqb_spec p (lit "--")) as [->|]; [|discriminate].
    cbn [negb] in H. rewrite bind_ok in H. destruct H as (tk & Htk & H).
    destruct (forallb is_ascii_digit tk) eqn:ED; [|discriminate]. cbn [negb] in H.
    apply slice_spec in Hp as (a & b & E & Ha & _). apply byte_len_0 in Ha as ->.
    apply slice_spec in Htk as (a' & b' & E' & Ha' & Hl).
    cbn [app] in E. rewrite E in E'.
    assert (a' = lit "--" /\ b = tk ++ b') as [-> ->]
      by (apply app_byte_inj in E' as [<- <-]; auto).
    assert (b' = []) as ->.
    { apply byte_len_0. apply Nat.eqb_eq in EL. rewrite E, !byte_len_app in EL. lia. }
    rewrite app_nil_r in *. exists tk, (digits_val tk).
    assert (two tk (digits_val tk)) as T.
    { apply two_iff. rewrite Ha', byte_len_digits in Hl by auto. repeat split; auto. lia. }
    repeat split; auto; try apply T. rewrite (parse_i32_res_two _ _ T) in H. congruence.
  - intros (ds & n & -> & T & ->).
    rewrite byte_len_app, (two_byte_len _ _ T). change (byte_len (lit "--") + 2)%nat with 4%nat.
    cbn [Nat.eqb negb].
    rewrite (slice_mid [] (lit "--") ds) by reflexivity. cbn [bind]. rewrite str_eqb_refl. cbn [negb].
    rewrite (slice_tail (lit "--") ds) by (try rewrite (two_byte_len _ _ T); reflexivity).
    cbn [bind]. rewrite (two_forallb _ _ T). cbn [negb]. apply parse_i32_res_two; auto.
Qed.

Lemma gmonthday_value_ok v m d : gmonthday_parse_value v = Ok (m, d) <->
  exists ms ds mn dn, v = lit "--" ++ ms ++ lit "-" ++ ds /\ two ms mn /\ two ds dn /\
    m = Z.of_N mn /\ d = Z.of_N dn.
Proof.
  unfold gmonthday_parse_value. split.
  - destruct (byte_len v =? 7)%nat eqn:EL; [|discriminate]. cbn [negb].
    rewrite bind_ok. intros (p & Hp & H). destruct (str_eqb_spec p (lit "--")) as [->|]; [|discriminate].
    cbn [negb] in H. rewrite bind_ok in H. destruct H as (q & Hq & H).
    destruct (str_eqb_spec q (lit "-")) as [->|]; [|discriminate].
    cbn [negb] in H. rewrite bind_ok in H. destruct H as (tk & Htk & H).
    destruct (forallb is_ascii_digit tk) eqn:ED; [|discriminate]. cbn [negb] in H.
    rewrite bind_ok in H. destruct H as (m' & Hm' & H).
    rewrite bind_ok in H. destruct H as (tk2 & Htk2 & H).
    destruct (forallb is_ascii_digit tk2) eqn:ED2; [|discriminate]. cbn [negb] in H.
    rewrite bind_ok in H. destruct H as (d' & Hd' & [= -> ->]).
    apply slice_spec in Hp as (a & b & E & Ha & _). apply byte_len_0 in Ha as ->. cbn [app] in E.
    apply slice_spec in Hq as (qa & qb & Eq & Hqa & Hql).
    apply slice_spec in Htk as (ta & tb & Et & Hta & Htl).
    apply slice_spec in Htk2 as (ua & ub & Eu & Hua & Hul).
    assert (ta = lit "--" /\ b = tk ++ tb) as [-> ->].
    { rewrite E in Et. apply app_byte_inj in Et as [<- <-]; auto. }
    assert (T : two tk (digits_val tk)).
    { apply two_iff. rewrite Hta, byte_len_digits in Htl by auto. repeat split; auto. lia. }
    assert (qa = lit "--" ++ tk /\ tb = lit "-" ++ qb) as [-> ->].
    { rewrite E, app_assoc in Eq. apply app_byte_inj in Eq as [<- <-]; auto.
      rewrite byte_len_app, (two_byte_len _ _ T), Hqa. auto. }
    assert (ua = (lit "--" ++ tk) ++ lit "-" /\ qb = tk2 ++ ub) as [-> ->].
    { rewrite Eq, app_assoc in Eu. apply app_byte_inj in Eu as [<- <-]; auto.
      rewrite byte_len_app, Hqa, Hua. auto. }
    assert (T2 : two tk2 (digits_val tk2)).
    { apply two_iff. rewrite Hua, byte_len_digits in Hul by auto. repeat split; auto. lia. }
    assert (ub = []) as ->.
    { apply byte_len_0. apply Nat.eqb_eq in EL. rewrite Eu in EL.
      repeat rewrite byte_len_app in EL. lia. }
    rewrite app_nil_r in *.
    rewrite (parse_i32_res_two _ _ T) in Hm'. rewrite (parse_i32_res_two _ _ T2) in Hd'.
    exists tk, tk2, (digits_val tk), (digits_val tk2).
    split; [rewrite Eu, !app_assoc; auto|]. repeat split; try apply T; try apply T2; congruence.
  - intros (ms & ds & mn & dn & -> & T & T2 & -> & ->).
    pose proof (two_byte_len _ _ T) as L1. pose proof (two_byte_len _ _ T2) as L2.
    rewrite !byte_len_app, L1, L2.
    change (byte_len (lit "--") + (2 + (byte_len (lit "-") + 2)))%nat with 7%nat.
    cbn [Nat.eqb negb].
    rewrite (slice_head (lit "--")) by reflexivity. cbn [bind]. rewrite str_eqb_refl. cbn [negb].
    rewrite (app_assoc (lit "--") ms).
    rewrite (slice_mid (lit "--" ++ ms) (lit "-")) by (rewrite ?byte_len_app, ?L1; reflexivity).
    cbn [bind]. rewrite str_eqb_refl. cbn [negb].
    rewrite <- (app_assoc (lit "--") ms).
    rewrite (slice_mid (lit "--") ms) by (rewrite ?L1; reflexivity).
    cbn [bind]. rewrite (two_forallb _ _ T). cbn [negb]. rewrite (parse_i32_res_two _ _ T). cbn [bind].
    rewrite (app_assoc ms), (app_assoc (lit "--")).
    rewrite (slice_tail (lit "--" ++ ms ++ lit "-") ds)
      by (rewrite ?byte_len_app, ?L1, ?L2; reflexivity).
    cbn [bind]. rewrite (two_forallb _ _ T2). cbn [negb]. rewrite (parse_i32_res_two _ _ T2). auto.
Qed.

Lemma gyear_value_ok v y : gyear_parse_value v = Ok y <->
  exists n, num v n /\ (4 <= List.length v)%nat /\ n < 2 ^ 31 /\ y = Z.of_N n.
Proof.
  unfold gyear_parse_value. split.
  - destruct (Nat.ltb_spec (byte_len v) 4); [discriminate|].
    destruct (forallb is_ascii_digit v) eqn:ED; [|discriminate]. cbn [negb].
    rewrite byte_len_digits in * by auto.
    assert (v <> []) by (destruct v; [cbn in *; lia|discriminate]).
    unfold parse_i32_res. rewrite parse_i32_digits by auto.
    destruct (Z.leb_spec (Z.of_N (digits_val v)) i32_max) as [Hle|]; [|discriminate].
    cbn [ok_or]. intros E; injection E as <-. exists (digits_val v).
    split; [apply num_iff; auto|]. unfold i32_max in Hle. repeat split; auto. lia.
  - intros (n & Hn & HL & Hlt & ->). apply num_iff in Hn as (H1 & H2 & H3).
    rewrite byte_len_digits by auto. destruct (Nat.ltb_spec (List.length v) 4); [lia|].
    rewrite H2. cbn [negb]. unfold parse_i32_res. rewrite parse_i32_digits by auto. rewrite H3.
    destruct (Z.leb_spec (Z.of_N n) i32_max); auto. unfold i32_max in *. lia.
Qed.

Lemma gyearmonth_value_ok v y m : gyearmonth_parse_value v = Ok (y, m) <->
  exists ys ms n k, v = ys ++ lit "-" ++ ms /\ num ys n /\ (4 <= List.length ys)%nat /\ n < 2 ^ 31 /\
    two ms k /\ y = Z.of_N n /\ m = Z.of_N k.
Proof.
  unfold gyearmonth_parse_value. split.
  - destruct (Nat.eqb_spec (count (chr "-") v) 1) as [EC|]; [|discriminate]. cbn [negb].
    destruct (split_before (chr "-") 0 v) as [[a [|c b]]|] eqn:ES; try discriminate.
    apply split_before_spec in ES as (-> & _ & t & [= -> ->]).
    destruct (Nat.ltb_spec (byte_len a) 4); [discriminate|].
    destruct (Nat.eqb_spec (byte_len t) 2) as [EL|]; [|discriminate]. cbn [negb orb].
    destruct (forallb is_ascii_digit a) eqn:Da; [|discriminate]. cbn [negb].
    rewrite bind_ok. intros (y' & Hy & H0).
    destruct (forallb is_ascii_digit t) eqn:Dt; [|discriminate]. cbn [negb] in H0.
    rewrite bind_ok in H0. destruct H0 as (m' & Hm & [= -> ->]).
    rewrite byte_len_digits in * by auto.
    assert (a <> []) by (destruct a; [cbn in *; lia|discriminate]).
    unfold parse_i32_res in Hy. rewrite parse_i32_digits in Hy by auto.
    destruct (Z.leb_spec (Z.of_N (digits_val a)) i32_max) as [Hle|]; [|discriminate].
    injection Hy as <-.
    assert (T : two t (digits_val t)) by (apply two_iff; auto).
    rewrite (parse_i32_res_two _ _ T) in Hm. injection Hm as <-.
    exists a, t, (digits_val a), (digits_val t).
    repeat split; auto; try apply T; [apply num_iff; auto|]. unfold i32_max in *; lia.
  - intros (ys & ms & n & k & -> & Hn & HL & Hlt & T & -> & ->).
    pose proof (num_digits _ _ Hn) as Dn. pose proof (two_forallb _ _ T) as Dm.
    change (lit "-" ++ ms) with (chr "-" :: ms).
    rewrite count_app. cbn [count]. change (chr "-" =? chr "-") with true.
    rewrite !(count_digits (chr "-")) by auto. cbn [Nat.add Nat.eqb negb].
    assert (split_before (chr "-") 0 (ys ++ chr "-" :: ms) = Some (ys, chr "-" :: ms)) as ->.
    { apply split_before_spec. repeat split; eauto. apply count_digits; auto. }
    rewrite (byte_len_digits ys), (two_byte_len _ _ T) by auto.
    destruct (Nat.ltb_spec (List.length ys) 4); [lia|]. cbn [Nat.eqb negb orb].
    rewrite Dn, Dm. cbn [negb]. apply num_iff in Hn as (N1 & N2 & N3).
    unfold parse_i32_res at 1. rewrite parse_i32_digits by auto. rewrite N3.
    destruct (Z.leb_spec (Z.of_N n) i32_max); [|unfold i32_max in *; lia].
    cbn [ok_or bind]. rewrite (parse_i32_res_two _ _ T). auto.
Qed.

(** ** from_str: language theorems *)
Lemma gday_generic s : gday_from_str s = generic gday_parse_value gday_new 3 s.
Proof. reflexivity. Qed.
Lemma gmonth_generic s : gmonth_from_str s = generic gmonth_parse_value gmonth_new 2 s.
Proof. reflexivity. Qed.
Lemma gmonthday_generic s :
  gmonthday_from_str s = generic gmonthday_parse_value (fun '(m, d) tz => gmonthday_new m d tz) 3 s.
Proof.
  unfold gmonthday_from_str, generic.
  destruct (strip_suffix (chr "Z") s) as [s'|].
  { destruct (gmonthday_parse_value s') as [[m d]| |]; reflexivity. }
  destruct (contains (chr "+") s).
  - destruct (1 <? count (chr "+") s)%nat; auto.
    destruct (split_before (chr "+") 0 s) as [[a b]|]; auto.
    destruct (gmonthday_parse_value a) as [[m d]| |]; reflexivity.
  - destruct (count (chr "-") s =? 4)%nat.
    + destruct (split_before (chr "-") 3 s) as [[a b]|]; auto.
      destruct (gmonthday_parse_value a) as [[m d]| |]; reflexivity.
    + destruct (gmonthday_parse_value s) as [[m d]| |]; reflexivity.
Qed.
Lemma gyearmonth_generic s :
  gyearmonth_parse_positive s = generic gyearmonth_parse_value (fun '(m, d) tz => gyearmonth_new m d tz) 1 s.
Proof.
  unfold gyearmonth_parse_positive, generic.
  destruct (strip_suffix (chr "Z") s) as [s'|].
  { destruct (gyearmonth_parse_value s') as [[m d]| |]; reflexivity. }
  destruct (contains (chr "+") s).
  - destruct (1 <? count (chr "+") s)%nat; auto.
    destruct (split_before (chr "+") 0 s) as [[a b]|]; auto.
    destruct (gyearmonth_parse_value a) as [[m d]| |]; reflexivity.
  - destruct (count (chr "-") s =? 2)%nat.
    + destruct (split_before (chr "-") 1 s) as [[a b]|]; auto.
      destruct (gyearmonth_parse_value a) as [[m d]| |]; reflexivity.
    + destruct (gyearmonth_parse_value s) as [[m d]| |]; reflexivity.
Qed.

Lemma gyear_generic s : gyear_parse_positive s = generic gyear_parse_value gyear_new 0 s.
Proof.
  unfold gyear_parse_positive, generic.
  destruct (strip_suffix (chr "Z") s); auto. destruct (contains (chr "+") s); auto.
  rewrite (contains_count (chr "-")).
  destruct (Nat.eqb_spec (count (chr "-") s) 0) as [E|E]; cbn [negb].
  - rewrite E. reflexivity.
  - destruct (Nat.ltb_spec 1 (count (chr "-") s)) as [H|H].
    + destruct (Nat.eqb_spec (count (chr "-") s) 1) as [|_]; [lia|].
      destruct (gyear_parse_value s) as [y| |] eqn:P; auto; exfalso.
      * apply gyear_value_ok in P as (n & Hn & _). apply num_digits in Hn.
        rewrite (count_digits (chr "-")) in E by auto. auto.
      * revert P. unfold gyear_parse_value. destruct (_ <? _)%nat; [discriminate|].
        destruct (negb _); [discriminate|]. unfold parse_i32_res.
        destruct (parse_i32 s); discriminate.
    + destruct (Nat.eqb_spec (count (chr "-") s) 1); [auto|lia].
Qed.

Lemma count_lit_dash3 : count (chr "-") (lit "---") = 3%nat. Proof. reflexivity. Qed.
Lemma count_lit_dash2 : count (chr "-") (lit "--") = 2%nat. Proof. reflexivity. Qed.

Lemma not_in_app (c : N) a b : ~ In c a -> ~ In c b -> ~ In c (a ++ b).
Proof. intros H1 H2 H. apply in_app_or in H as [H|H]; auto. Qed.

Lemma two_not_in c s n : two s n -> is_ascii_digit c = false -> ~ In c s.
Proof. intros T. apply digits_not_in, (two_forallb _ _ T). Qed.

Ltac inlit := vm_compute; intuition discriminate.

Lemma gday_ok s g : gday_from_str s = Ok g <->
  exists ds n t, s = lit "---" ++ ds ++ t /\ two ds n /\ 1 <= n <= 31 /\
    tz_opt t (gd_tz g) /\ gd_value g = Z.of_N n.
Proof.
  rewrite gday_generic, generic_ok.
  - split.
    + intros (v & t & a & tz & -> & Hv & Ht & Hmk). apply gday_value_ok in Hv as (ds & n & -> & T & ->).
      exists ds, n, t. rewrite app_assoc. unfold gday_new in Hmk.
      destruct ((1 <=? Z.of_N n) && (Z.of_N n <=? 31))%Z eqn:E; [|discriminate].
      injection Hmk as <-. cbn [gd_tz gd_value]. repeat split; auto; try apply T; lia.
    + intros (ds & n & t & -> & T & Hn & Ht & Hval).
      exists (lit "---" ++ ds), t, (Z.of_N n), (gd_tz g). rewrite app_assoc. repeat split; auto.
      * apply gday_value_ok; eauto.
      * unfold gday_new. destruct ((1 <=? Z.of_N n) && (Z.of_N n <=? 31))%Z eqn:E; [|lia].
        cbn [negb]. destruct g; cbn in *; congruence.
  - intros v a H. apply gday_value_ok in H as (ds & n & -> & T & _).
    rewrite count_app, (count_not_in _ ds); auto. apply (two_not_in _ _ _ T); auto.
  - intros v a H. apply gday_value_ok in H as (ds & n & -> & T & _).
    apply count_not_in, not_in_app; [inlit|]. apply (two_not_in _ _ _ T); auto.
  - intros v a H. apply gday_value_ok in H as (ds & n & -> & T & _).
    apply not_in_app; [inlit|]. apply (two_not_in _ _ _ T); auto.
Qed.

Lemma gmonth_ok s g : gmonth_from_str s = Ok g <->
  exists ds n t, s = lit "--" ++ ds ++ t /\ two ds n /\ 1 <= n <= 12 /\
    tz_opt t (gm_tz g) /\ gm_value g = Z.of_N n.
Proof.
  rewrite gmonth_generic, generic_ok.
  - split.
    + intros (v & t & a & tz & -> & Hv & Ht & Hmk). apply gmonth_value_ok in Hv as (ds & n & -> & T & ->).
      exists ds, n, t. rewrite app_assoc. unfold gmonth_new in Hmk.
      destruct ((1 <=? Z.of_N n) && (Z.of_N n <=? 12))%Z eqn:E; [|discriminate].
      injection Hmk as <-. cbn [gm_tz gm_value]. repeat split; auto; try apply T; lia.
    + intros (ds & n & t & -> & T & Hn & Ht & Hval).
      exists (lit "--" ++ ds), t, (Z.of_N n), (gm_tz g). rewrite app_assoc. repeat split; auto.
      * apply gmonth_value_ok; eauto.
      * unfold gmonth_new. destruct ((1 <=? Z.of_N n) && (Z.of_N n <=? 12))%Z eqn:E; [|lia].
        cbn [negb]. destruct g; cbn in *; congruence.
  - intros v a H. apply gmonth_value_ok in H as (ds & n & -> & T & _).
    rewrite count_app, (count_not_in _ ds); auto. apply (two_not_in _ _ _ T); auto.
  - intros v a H. apply gmonth_value_ok in H as (ds & n & -> & T & _).
    apply count_not_in, not_in_app; [inlit|]. apply (two_not_in _ _ _ T); auto.
  - intros v a H. apply gmonth_value_ok in H as (ds & n & -> & T & _).
    apply not_in_app; [inlit|]. apply (two_not_in _ _ _ T); auto.
Qed.

(** The table of month lengths is the calendar's (leap years allowed). *)
Lemma gmonthday_new_ok m d tz g : gmonthday_new m d tz = Ok g <->
  (1 <= m <= 12 /\ 1 <= d /\ exists y, d <= days_in_month y m)%Z /\
  g = {| gmd_month := m; gmd_day := d; gmd_tz := tz |}.
Proof.
  unfold gmonthday_new.
  destruct ((1 <=? m) && (m <=? 12))%Z eqn:Em; cbn [negb].
  2: { split; [discriminate|]. lia. }
  assert (Hm : (m = 1 \/ m = 2 \/ m = 3 \/ m = 4 \/ m = 5 \/ m = 6 \/ m = 7 \/ m = 8 \/ m = 9
                \/ m = 10 \/ m = 11 \/ m = 12)%Z) by lia.
  assert (Hmax : exists mx, nth_error month_max_len (Z.to_nat (m - 1)) = Some mx /\
            (mx <= 31)%Z /\ ((exists y, d <= days_in_month y m) <-> d <= mx)%Z).
  { repeat destruct Hm as [->|Hm]; [..|subst m];
    (eexists; split; [reflexivity|]; split; [lia|]; split;
     [intros [y Hy]; revert Hy; unfold days_in_month; cbv [Z.eqb Pos.eqb orb]; try destruct (leap y); lia
     |intros H; exists 4%Z; exact H]). }
  destruct Hmax as (mx & -> & Hle & Hiff).
  destruct ((1 <=? d) && (d <=? 31))%Z eqn:Ed; cbn [negb].
  2: { split; [discriminate|]. intros [(_ & H1 & H2) _]. apply Hiff in H2. lia. }
  destruct (Z.ltb_spec mx d).
  - split; [discriminate|]. intros [(_ & _ & H2) _]. apply Hiff in H2. lia.
  - split.
    + intros [= <-]. split; auto. repeat split; try lia. apply Hiff; lia.
    + intros [_ ->]. auto.
Qed.

Lemma gmonthday_ok s g : gmonthday_from_str s = Ok g <->
  exists ms ds m d t, s = lit "--" ++ ms ++ lit "-" ++ ds ++ t /\ two ms m /\ two ds d /\
    1 <= m <= 12 /\ 1 <= d /\ (exists y, (Z.of_N d <= days_in_month y (Z.of_N m))%Z) /\
    tz_opt t (gmd_tz g) /\ gmd_month g = Z.of_N m /\ gmd_day g = Z.of_N d.
Proof.
  rewrite gmonthday_generic, generic_ok.
  - split.
    + intros (v & t & [m d] & tz & -> & Hv & Ht & Hmk).
      apply gmonthday_value_ok in Hv as (ms & ds & mn & dn & -> & T & T2 & -> & ->).
      apply gmonthday_new_ok in Hmk as [(H1 & H2 & H3) ->]. cbn [gmd_tz gmd_month gmd_day].
      exists ms, ds, mn, dn, t. rewrite <- !app_assoc.
      repeat split; auto; try apply T; try apply T2; lia.
    + intros (ms & ds & m & d & t & -> & T & T2 & Hm & Hd & Hy & Ht & E1 & E2).
      exists (lit "--" ++ ms ++ lit "-" ++ ds), t, (Z.of_N m, Z.of_N d), (gmd_tz g).
      split; [rewrite <- !app_assoc; auto|]. repeat split; auto.
      * apply gmonthday_value_ok. exists ms, ds, m, d. auto.
      * apply gmonthday_new_ok. split; [repeat split; auto; lia|].
        destruct g; cbn in *; congruence.
  - intros v [m d] H. apply gmonthday_value_ok in H as (ms & ds & mn & dn & -> & T & T2 & _).
    rewrite !count_app, (count_not_in _ ds), (count_not_in _ ms); auto.
    + apply (two_not_in _ _ _ T); auto.
    + apply (two_not_in _ _ _ T2); auto.
  - intros v [m d] H. apply gmonthday_value_ok in H as (ms & ds & mn & dn & -> & T & T2 & _).
    apply count_not_in. repeat apply not_in_app; try inlit.
    + apply (two_not_in _ _ _ T); auto.
    + apply (two_not_in _ _ _ T2); auto.
  - intros v [m d] H. apply gmonthday_value_ok in H as (ms & ds & mn & dn & -> & T & T2 & _).
    repeat apply not_in_app; try inlit.
    + apply (two_not_in _ _ _ T); auto.
    + apply (two_not_in _ _ _ T2); auto.
Qed.

Lemma num_not_in c s n : num s n -> is_ascii_digit c = false -> ~ In c s.
Proof. intros T. apply digits_not_in, (num_digits _ _ T). Qed.

Lemma gyear_pos_ok s g : gyear_parse_positive s = Ok g <->
  exists ys n t, s = ys ++ t /\ num ys n /\ (4 <= List.length ys)%nat /\ 0 < n < 2 ^ 31 /\
    tz_opt t (gy_tz g) /\ gy_value g = Z.of_N n.
Proof.
  rewrite gyear_generic, generic_ok.
  - split.
    + intros (v & t & a & tz & -> & Hv & Ht & Hmk). apply gyear_value_ok in Hv as (n & Hn & HL & Hlt & ->).
      unfold gyear_new in Hmk. destruct (Z.eqb_spec (Z.of_N n) 0); [discriminate|].
      injection Hmk as <-. exists v, n, t. cbn [gy_tz gy_value]. repeat split; auto. lia.
    + intros (ys & n & t & -> & Hn & HL & Hlt & Ht & Hval).
      exists ys, t, (Z.of_N n), (gy_tz g). repeat split; auto.
      * apply gyear_value_ok. exists n. repeat split; auto; lia.
      * unfold gyear_new. destruct (Z.eqb_spec (Z.of_N n) 0); [lia|].
        destruct g; cbn in *; congruence.
  - intros v a H. apply gyear_value_ok in H as (n & Hn & _). apply count_not_in, (num_not_in _ _ _ Hn); auto.
  - intros v a H. apply gyear_value_ok in H as (n & Hn & _). apply count_not_in, (num_not_in _ _ _ Hn); auto.
  - intros v a H. apply gyear_value_ok in H as (n & Hn & _). apply (num_not_in _ _ _ Hn); auto.
Qed.

Lemma num_head s n c t : num s n -> s = c :: t -> is_ascii_digit c = true.
Proof. intros H ->. apply num_digits in H. cbn [forallb] in H. apply andb_true_iff in H; tauto. Qed.

Lemma strip_dash_num s n t : num s n -> strip_prefix (chr "-") (s ++ t) = None.
Proof.
  intros H. apply strip_prefix_none. intros u E. destruct s as [|c s].
  - apply num_iff in H as (H & _). congruence.
  - cbn [app] in E. injection E as -> _. pose proof (num_head _ _ _ _ H eq_refl) as D. discriminate.
Qed.

Lemma gyear_ok s g : gyear_from_str s = Ok g <->
  exists ys t, s = ys ++ t /\ year_lex ys (gy_value g) /\ tz_opt t (gy_tz g).
Proof.
  unfold gyear_from_str. split.
  - destruct (strip_prefix (chr "-") s) as [s'|] eqn:E.
    + apply strip_prefix_spec in E as ->. rewrite bind_ok. intros (g' & Hg & Hr). injection Hr as <-.
      apply gyear_pos_ok in Hg as (ys & n & t & -> & Hn & HL & Hlt & Ht & Hv).
      exists (lit "-" ++ ys), t. cbn [gy_value gy_tz]. split; [reflexivity|]. split; auto.
      rewrite Hv. replace (Z.of_N n * -1)%Z with (- Z.of_N n)%Z by lia. constructor; auto.
    + intros Hg. apply gyear_pos_ok in Hg as (ys & n & t & -> & Hn & HL & Hlt & Ht & Hv).
      exists ys, t. rewrite Hv. repeat split; auto. constructor; auto.
  - intros (ys & t & -> & Hy & Ht). remember (gy_value g) as y eqn:Ey.
    destruct Hy as [ys n Hn HL Hlt|ys n Hn HL Hlt].
    + rewrite (strip_dash_num _ _ _ Hn). apply gyear_pos_ok. exists ys, n, t. auto 10.
    + change ((lit "-" ++ ys) ++ t) with (chr "-" :: (ys ++ t)).
      assert (strip_prefix (chr "-") (chr "-" :: (ys ++ t)) = Some (ys ++ t)) as ->
        by (apply strip_prefix_spec; auto).
      apply bind_ok. exists {| gy_value := Z.of_N n; gy_tz := gy_tz g |}. split.
      * apply gyear_pos_ok. exists ys, n, t. auto 10.
      * cbn [gy_value gy_tz]. replace (Z.of_N n * -1)%Z with (- Z.of_N n)%Z by lia.
        rewrite Ey. destruct g; auto.
Qed.

Lemma gyearmonth_pos_ok s g : gyearmonth_parse_positive s = Ok g <->
  exists ys ms n m t, s = ys ++ lit "-" ++ ms ++ t /\ num ys n /\ (4 <= List.length ys)%nat /\
    0 < n < 2 ^ 31 /\ two ms m /\ 1 <= m <= 12 /\
    tz_opt t (gym_tz g) /\ gym_year g = Z.of_N n /\ gym_month g = Z.of_N m.
Proof.
  rewrite gyearmonth_generic, generic_ok.
  - split.
    + intros (v & t & [y m] & tz & -> & Hv & Ht & Hmk).
      apply gyearmonth_value_ok in Hv as (ys & ms & n & k & -> & Hn & HL & Hlt & T & -> & ->).
      unfold gyearmonth_new in Hmk. destruct (Z.eqb_spec (Z.of_N n) 0); [discriminate|].
      destruct ((1 <=? Z.of_N k) && (Z.of_N k <=? 12))%Z eqn:E; [|discriminate].
      injection Hmk as <-. exists ys, ms, n, k, t. cbn [gym_tz gym_year gym_month].
      rewrite <- !app_assoc. repeat split; auto; try apply T; lia.
    + intros (ys & ms & n & m & t & -> & Hn & HL & Hlt & T & Hm & Ht & E1 & E2).
      exists (ys ++ lit "-" ++ ms), t, (Z.of_N n, Z.of_N m), (gym_tz g).
      split; [rewrite <- !app_assoc; auto|]. repeat split; auto.
      * apply gyearmonth_value_ok. exists ys, ms, n, m. repeat split; auto; try apply T; lia.
      * unfold gyearmonth_new. destruct (Z.eqb_spec (Z.of_N n) 0); [lia|].
        destruct ((1 <=? Z.of_N m) && (Z.of_N m <=? 12))%Z eqn:E; [|lia].
        cbn [negb]. destruct g; cbn in *; congruence.
  - intros v [y m] H. apply gyearmonth_value_ok in H as (ys & ms & n & k & -> & Hn & HL & Hlt & T & _).
    rewrite !count_app, (count_not_in _ ys), (count_not_in _ ms); auto.
    + apply (two_not_in _ _ _ T); auto.
    + apply (num_not_in _ _ _ Hn); auto.
  - intros v [y m] H. apply gyearmonth_value_ok in H as (ys & ms & n & k & -> & Hn & HL & Hlt & T & _).
    apply count_not_in. repeat apply not_in_app; try inlit.
    + apply (num_not_in _ _ _ Hn); auto.
    + apply (two_not_in _ _ _ T); auto.
  - intros v [y m] H. apply gyearmonth_value_ok in H as (ys & ms & n & k & -> & Hn & HL & Hlt & T & _).
    repeat apply not_in_app; try inlit.
    + apply (num_not_in _ _ _ Hn); auto.
    + apply (two_not_in _ _ _ T); auto.
Qed.

Lemma gyearmonth_ok s g : gyearmonth_from_str s = Ok g <->
  exists ys ms m t, s = ys ++ lit "-" ++ ms ++ t /\ year_lex ys (gym_year g) /\ two ms m /\
    1 <= m <= 12 /\ tz_opt t (gym_tz g) /\ gym_month g = Z.of_N m.
Proof.
  unfold gyearmonth_from_str. split.
  - destruct (strip_prefix (chr "-") s) as [s'|] eqn:E.
    + apply strip_prefix_spec in E as ->. rewrite bind_ok. intros (g' & Hg & Hr). injection Hr as <-.
      apply gyearmonth_pos_ok in Hg as (ys & ms & n & m & t & -> & Hn & HL & Hlt & T & Hm & Ht & E1 & E2).
      exists (lit "-" ++ ys), ms, m, t. cbn [gym_year gym_tz gym_month]. split; [reflexivity|].
      repeat split; auto; try apply T; try lia.
      rewrite E1. replace (Z.of_N n * -1)%Z with (- Z.of_N n)%Z by lia. constructor; auto.
    + intros Hg.
      apply gyearmonth_pos_ok in Hg as (ys & ms & n & m & t & -> & Hn & HL & Hlt & T & Hm & Ht & E1 & E2).
      exists ys, ms, m, t. rewrite E1. repeat split; auto; try apply T; try lia. constructor; auto.
  - intros (ys & ms & m & t & -> & Hy & T & Hm & Ht & Em). remember (gym_year g) as y eqn:Ey.
    destruct Hy as [ys n Hn HL Hlt|ys n Hn HL Hlt].
    + rewrite (strip_dash_num _ _ _ Hn). apply gyearmonth_pos_ok. exists ys, ms, n, m, t. auto 15.
    + change ((lit "-" ++ ys) ++ lit "-" ++ ms ++ t) with (chr "-" :: (ys ++ lit "-" ++ ms ++ t)).
      assert (strip_prefix (chr "-") (chr "-" :: (ys ++ lit "-" ++ ms ++ t)) = Some (ys ++ lit "-" ++ ms ++ t)) as ->
        by (apply strip_prefix_spec; auto).
      apply bind_ok. exists {| gym_year := Z.of_N n; gym_month := gym_month g; gym_tz := gym_tz g |}. split.
      * apply gyearmonth_pos_ok. exists ys, ms, n, m, t. auto 15.
      * cbn [gym_year gym_tz gym_month]. replace (Z.of_N n * -1)%Z with (- Z.of_N n)%Z by lia.
        rewrite Ey. destruct g; auto.
Qed.

(** ** Round trips *)
Lemma tz_text_ok tz : xsd_zone tz -> tz_opt (tz_text tz) tz.
Proof.
  destruct tz as [z|]; cbn [xsd_zone tz_text]; intros H; [|constructor].
  constructor. apply display_offset_whole; tauto.
Qed.

Lemma pad_signed_pos w z : (0 <= z)%Z -> pad_signed w z = pad w (Z.to_N z).
Proof.
  intros H. unfold pad_signed. destruct (Z.ltb_spec z 0); [lia|]. f_equal. lia.
Qed.

Lemma gday_round_trip d tz g : gday_new d tz = Ok g -> xsd_zone tz ->
  gday_from_str (gday_display g) = Ok g.
Proof.
  unfold gday_new. destruct ((1 <=? d) && (d <=? 31))%Z eqn:E; [|discriminate]. cbn [negb].
  intros H Hz. injection H as <-. apply gday_ok. unfold gday_display. cbn [gd_value gd_tz].
  exists (pad 2 (Z.to_N d)), (Z.to_N d), (tz_text tz). rewrite pad_signed_pos by lia.
  split; auto. split; [apply two_pad; lia|]. split; [lia|]. split; [apply tz_text_ok; auto|lia].
Qed.

Lemma gmonth_round_trip d tz g : gmonth_new d tz = Ok g -> xsd_zone tz ->
  gmonth_from_str (gmonth_display g) = Ok g.
Proof.
  unfold gmonth_new. destruct ((1 <=? d) && (d <=? 12))%Z eqn:E; [|discriminate]. cbn [negb].
  intros H Hz. injection H as <-. apply gmonth_ok. unfold gmonth_display. cbn [gm_value gm_tz].
  exists (pad 2 (Z.to_N d)), (Z.to_N d), (tz_text tz). rewrite pad_signed_pos by lia.
  split; auto. split; [apply two_pad; lia|]. split; [lia|]. split; [apply tz_text_ok; auto|lia].
Qed.

Lemma days_in_month_31 y m : (days_in_month y m <= 31)%Z.
Proof. unfold days_in_month. destruct (leap y); repeat destruct (_ =? _)%Z; cbn [orb]; lia. Qed.

Lemma gmonthday_round_trip m d tz g : gmonthday_new m d tz = Ok g -> xsd_zone tz ->
  gmonthday_from_str (gmonthday_display g) = Ok g.
Proof.
  intros H Hz. apply gmonthday_new_ok in H as [(H1 & H2 & y & H3) ->].
  apply gmonthday_ok. unfold gmonthday_display. cbn [gmd_month gmd_day gmd_tz].
  pose proof (days_in_month_31 y m).
  exists (pad 2 (Z.to_N m)), (pad 2 (Z.to_N d)), (Z.to_N m), (Z.to_N d), (tz_text tz).
  rewrite !pad_signed_pos by lia. split; auto.
  split; [apply two_pad; lia|]. split; [apply two_pad; lia|]. split; [lia|]. split; [lia|].
  split; [exists y; rewrite !Z2N.id by lia; lia|]. split; [apply tz_text_ok; auto|lia].
Qed.

Lemma year_pos_lex y : (0 < y <= i32_max)%Z -> year_lex (pad 4 (Z.to_N y)) y.
Proof.
  unfold i32_max. intros H. replace y with (Z.of_N (Z.to_N y)) at 2 by lia.
  constructor; [apply num_pad|apply pad_length_ge|lia].
Qed.
Lemma year_neg_lex y : (i32_min < y < 0)%Z -> year_lex (lit "-" ++ pad 4 (Z.to_N (- y))) y.
Proof.
  unfold i32_min. intros H. replace y with (- Z.of_N (Z.to_N (- y)))%Z at 2 by lia.
  constructor; [apply num_pad|apply pad_length_ge|lia].
Qed.

Lemma gyear_round_trip chk y tz g :
  (i32_min < y <= i32_max)%Z -> gyear_new y tz = Ok g -> xsd_zone tz ->
  exists s, gyear_display chk g = Ok s /\ gyear_from_str s = Ok g.
Proof.
  unfold gyear_new. destruct (Z.eqb_spec y 0); [discriminate|]. intros Hy H Hz. injection H as <-.
  unfold gyear_display. cbn [gy_value gy_tz]. destruct (Z.ltb_spec 0 y).
  - eexists; split; [reflexivity|]. apply gyear_ok. cbn [gy_value gy_tz].
    rewrite pad_signed_pos by lia. do 2 eexists. split; [reflexivity|].
    split; [apply year_pos_lex; lia|apply tz_text_ok; auto].
  - unfold i32_neg. destruct (Z.eqb_spec y i32_min); [lia|]. cbn [bind].
    eexists; split; [reflexivity|]. apply gyear_ok. cbn [gy_value gy_tz].
    rewrite pad_signed_pos by lia. exists (lit "-" ++ pad 4 (Z.to_N (- y))), (tz_text tz).
    split; [rewrite <- app_assoc; reflexivity|].
    split; [apply year_neg_lex; lia|apply tz_text_ok; auto].
Qed.

Lemma gyearmonth_round_trip chk y m tz g :
  (i32_min < y <= i32_max)%Z -> gyearmonth_new y m tz = Ok g -> xsd_zone tz ->
  exists s, gyearmonth_display chk g = Ok s /\ gyearmonth_from_str s = Ok g.
Proof.
  unfold gyearmonth_new. destruct (Z.eqb_spec y 0); [discriminate|].
  destruct ((1 <=? m) && (m <=? 12))%Z eqn:E; [|discriminate]. cbn [negb].
  intros Hy H Hz. injection H as <-.
  unfold gyearmonth_display. cbn [gym_year gym_month gym_tz]. destruct (Z.ltb_spec 0 y).
  - eexists; split; [reflexivity|]. apply gyearmonth_ok. cbn [gym_year gym_month gym_tz].
    rewrite !pad_signed_pos by lia. do 4 eexists. split; [reflexivity|].
    split; [apply year_pos_lex; lia|]. split; [apply two_pad; lia|].
    split; [lia|]. split; [apply tz_text_ok; auto|lia].
  - unfold i32_neg. destruct (Z.eqb_spec y i32_min); [lia|]. cbn [bind].
    eexists; split; [reflexivity|]. apply gyearmonth_ok. cbn [gym_year gym_month gym_tz].
    rewrite !pad_signed_pos by lia.
    exists (lit "-" ++ pad 4 (Z.to_N (- y))), (pad 2 (Z.to_N m)), (Z.to_N m), (tz_text tz).
    split; [rewrite <- app_assoc; reflexivity|].
    split; [apply year_neg_lex; lia|]. split; [apply two_pad; lia|].
    split; [lia|]. split; [apply tz_text_ok; auto|lia].
Qed.

(** i32::MIN: the displayed text (overflow checks off) starts with "--". *)
Lemma year_lex_no_dd s t y u : year_lex s y -> s ++ t <> lit "--" ++ u.
Proof.
  intros H E. change (lit "--" ++ u) with (chr "-" :: chr "-" :: u) in E.
  destruct H as [s n Hn _ _|s n Hn _ _].
  - pose proof (strip_dash_num _ _ t Hn) as H. rewrite E in H.
    apply strip_prefix_none with (t := chr "-" :: u) in H. auto.
  - change ((lit "-" ++ s) ++ t) with (chr "-" :: (s ++ t)) in E. injection E as E.
    pose proof (strip_dash_num _ _ t Hn) as H. rewrite E in H.
    apply strip_prefix_none with (t := u) in H. auto.
Qed.

Lemma gyear_min tz :
  let g := {| gy_value := i32_min; gy_tz := tz |} in
  gyear_display true g = Panic /\
  exists s, gyear_display false g = Ok s /\ forall g', gyear_from_str s <> Ok g'.
Proof.
  split; [reflexivity|]. eexists. split; [reflexivity|]. intros g' H.
  apply gyear_ok in H as (ys & t & E & Hy & _). symmetry in E. revert E.
  apply (year_lex_no_dd ys t _ (lit "2147483648" ++ tz_text tz) Hy).
Qed.
Lemma gyearmonth_min m tz :
  let g := {| gym_year := i32_min; gym_month := m; gym_tz := tz |} in
  gyearmonth_display true g = Panic /\
  exists s, gyearmonth_display false g = Ok s /\ forall g', gyearmonth_from_str s <> Ok g'.
Proof.
  split; [reflexivity|]. eexists. split; [reflexivity|]. intros g' H.
  apply gyearmonth_ok in H as (ys & ms & mn & t & E & Hy & _). symmetry in E. revert E.
  apply (year_lex_no_dd ys (lit "-" ++ ms ++ t) _
           (lit "2147483648" ++ lit "-" ++ pad_signed 2 m ++ tz_text tz) Hy).
Qed.

(** ** Panics *)
Lemma slice_ascii s i j : forallb is_ascii s = true -> (i <= j)%nat -> (j <= byte_len s)%nat ->
  exists m, slice s i j = Ok m.
Proof.
  intros Ha Hij Hj. rewrite byte_len_ascii in Hj by auto.
  assert (Hf : forall k, forallb is_ascii (firstn k s) = true).
  { intros k. apply forallb_forall. intros x Hx. rewrite forallb_forall in Ha. apply Ha.
    rewrite <- (firstn_skipn k s). apply in_or_app; auto. }
  exists (skipn i (firstn j s)). apply slice_spec.
  exists (firstn i (firstn j s)), (skipn j s).
  assert (Hfi : forallb is_ascii (firstn i (firstn j s)) = true).
  { rewrite firstn_firstn. apply Hf. }
  assert (Hsk : forallb is_ascii (skipn i (firstn j s)) = true).
  { apply forallb_forall. intros x Hx. specialize (Hf j). rewrite forallb_forall in Hf. apply Hf.
    rewrite <- (firstn_skipn i (firstn j s)). apply in_or_app; auto. }
  split; [|split].
  - rewrite app_assoc, !firstn_skipn. auto.
  - rewrite byte_len_ascii by auto. rewrite firstn_length, firstn_length. lia.
  - rewrite !byte_len_ascii by auto. rewrite skipn_length, !firstn_length. lia.
Qed.

Lemma parse_i32_res_no_panic s : parse_i32_res s <> Panic.
Proof. unfold parse_i32_res. destruct (parse_i32 s); discriminate. Qed.

Lemma ascii_prefix v t : forallb is_ascii (v ++ t) = true -> forallb is_ascii v = true.
Proof. rewrite forallb_app, andb_true_iff. tauto. Qed.

Lemma gday_value_ascii v : forallb is_ascii v = true -> gday_parse_value v <> Panic.
Proof.
  intros Ha. unfold gday_parse_value. destruct (Nat.eqb_spec (byte_len v) 5) as [E|]; [|discriminate].
  cbn [negb]. destruct (slice_ascii v 0 3 Ha) as (p & ->); try lia. cbn [bind].
  destruct (negb _); [discriminate|].
  destruct (slice_ascii v 3 5 Ha) as (q & ->); try lia. cbn [bind].
  destruct (negb _); [discriminate|]. apply parse_i32_res_no_panic.
Qed.
Lemma gmonth_value_ascii v : forallb is_ascii v = true -> gmonth_parse_value v <> Panic.
Proof.
  intros Ha. unfold gmonth_parse_value. destruct (Nat.eqb_spec (byte_len v) 4) as [E|]; [|discriminate].
  cbn [negb]. destruct (slice_ascii v 0 2 Ha) as (p & ->); try lia. cbn [bind].
  destruct (negb _); [discriminate|].
  destruct (slice_ascii v 2 4 Ha) as (q & ->); try lia. cbn [bind].
  destruct (negb _); [discriminate|]. apply parse_i32_res_no_panic.
Qed.
Lemma gmonthday_value_ascii v : forallb is_ascii v = true -> gmonthday_parse_value v <> Panic.
Proof.
  intros Ha. unfold gmonthday_parse_value. destruct (Nat.eqb_spec (byte_len v) 7) as [E|]; [|discriminate].
  cbn [negb]. destruct (slice_ascii v 0 2 Ha) as (p & ->); try lia. cbn [bind].
  destruct (negb _); [discriminate|].
  destruct (slice_ascii v 4 5 Ha) as (q & ->); try lia. cbn [bind].
  destruct (negb _); [discriminate|].
  destruct (slice_ascii v 2 4 Ha) as (mt & ->); try lia. cbn [bind].
  destruct (negb _); [discriminate|].
  destruct (parse_i32_res mt) eqn:P; cbn [bind]; [|discriminate|apply parse_i32_res_no_panic in P; tauto].
  destruct (slice_ascii v 5 7 Ha) as (dt & ->); try lia. cbn [bind].
  destruct (negb _); [discriminate|].
  destruct (parse_i32_res dt) eqn:P2; cbn [bind]; try discriminate. apply parse_i32_res_no_panic in P2; tauto.
Qed.
Lemma gyear_value_no_panic v : gyear_parse_value v <> Panic.
Proof.
  unfold gyear_parse_value. destruct (_ <? _)%nat; [discriminate|].
  destruct (negb _); [discriminate|]. apply parse_i32_res_no_panic.
Qed.
Lemma gyearmonth_value_no_panic v : gyearmonth_parse_value v <> Panic.
Proof.
  unfold gyearmonth_parse_value. destruct (Nat.eqb_spec (count (chr "-") v) 1) as [E|]; [|discriminate].
  cbn [negb]. destruct (split_before_some (chr "-") 0 v) as (a & t & ->); [lia|].
  destruct (_ || _); [discriminate|]. destruct (negb _); [discriminate|].
  destruct (parse_i32_res a) eqn:P; cbn [bind]; [|discriminate|apply parse_i32_res_no_panic in P; tauto].
  destruct (negb _); [discriminate|].
  destruct (parse_i32_res t) eqn:P2; cbn [bind]; try discriminate. apply parse_i32_res_no_panic in P2; tauto.
Qed.

Lemma gmonthday_new_no_panic m d tz : gmonthday_new m d tz <> Panic.
Proof.
  unfold gmonthday_new. destruct ((1 <=? m) && (m <=? 12))%Z eqn:E; [|discriminate]. cbn [negb].
  destruct (negb _); [discriminate|].
  destruct (nth_error month_max_len (Z.to_nat (m - 1))) eqn:N; [destruct (_ <? _)%Z; discriminate|].
  apply nth_error_None in N. unfold month_max_len in N. cbn [List.length] in N. lia.
Qed.

Lemma gday_no_panic s : forallb is_ascii s = true -> gday_from_str s <> Panic.
Proof.
  intros Ha H. rewrite gday_generic in H. apply generic_panic in H as (v & t & -> & H).
  apply ascii_prefix in Ha. destruct H as [H|(a & tz & _ & H)].
  - apply gday_value_ascii in H; auto.
  - unfold gday_new in H. destruct (negb _); discriminate.
Qed.
Lemma gmonth_no_panic s : forallb is_ascii s = true -> gmonth_from_str s <> Panic.
Proof.
  intros Ha H. rewrite gmonth_generic in H. apply generic_panic in H as (v & t & -> & H).
  apply ascii_prefix in Ha. destruct H as [H|(a & tz & _ & H)].
  - apply gmonth_value_ascii in H; auto.
  - unfold gmonth_new in H. destruct (negb _); discriminate.
Qed.
Lemma gmonthday_no_panic s : forallb is_ascii s = true -> gmonthday_from_str s <> Panic.
Proof.
  intros Ha H. rewrite gmonthday_generic in H. apply generic_panic in H as (v & t & -> & H).
  apply ascii_prefix in Ha. destruct H as [H|([m d] & tz & _ & H)].
  - apply gmonthday_value_ascii in H; auto.
  - apply gmonthday_new_no_panic in H; auto.
Qed.
Lemma gyear_no_panic s : gyear_from_str s <> Panic.
Proof.
  assert (P : forall s, gyear_parse_positive s <> Panic).
  { intros u H. rewrite gyear_generic in H. apply generic_panic in H as (v & t & -> & H).
    destruct H as [H|(a & tz & _ & H)]; [apply gyear_value_no_panic in H; auto|].
    unfold gyear_new in H. destruct (_ =? _)%Z; discriminate. }
  unfold gyear_from_str. destruct (strip_prefix (chr "-") s) as [s'|]; [|apply P].
  intros H. apply bind_panic in H as [H|(a & _ & H)]; [eapply P; eauto|discriminate].
Qed.
Lemma gyearmonth_no_panic s : gyearmonth_from_str s <> Panic.
Proof.
  assert (P : forall s, gyearmonth_parse_positive s <> Panic).
  { intros u H. rewrite gyearmonth_generic in H. apply generic_panic in H as (v & t & -> & H).
    destruct H as [H|([y m] & tz & _ & H)]; [apply gyearmonth_value_no_panic in H; auto|].
    unfold gyearmonth_new in H. destruct (_ =? _)%Z; [discriminate|]. destruct (negb _); discriminate. }
  unfold gyearmonth_from_str. destruct (strip_prefix (chr "-") s) as [s'|]; [|apply P].
  intros H. apply bind_panic in H as [H|(a & _ & H)]; [eapply P; eauto|discriminate].
Qed.
Lemma gyearmonth_min_new m tz : (1 <= m <= 12)%Z ->
  exists g, gyearmonth_new i32_min m tz = Ok g /\ gyearmonth_display true g = Panic /\
  exists s, gyearmonth_display false g = Ok s /\ forall g', gyearmonth_from_str s <> Ok g'.
Proof.
  intros H. exists {| gym_year := i32_min; gym_month := m; gym_tz := tz |}.
  split; [|apply gyearmonth_min]. unfold gyearmonth_new.
  change (i32_min =? 0)%Z with false. destruct ((1 <=? m) && (m <=? 12))%Z eqn:E; [auto|lia].
Qed.
Lemma gtypes_no_panic s : (forall c, In c s -> c < 128) ->
  gday_from_str s <> Panic /\ gmonth_from_str s <> Panic /\ gmonthday_from_str s <> Panic.
Proof.
  intros H. assert (Ha : forallb is_ascii s = true).
  { apply forallb_forall. intros c Hc. apply N.ltb_lt. auto. }
  auto using gday_no_panic, gmonth_no_panic, gmonthday_no_panic.
Qed.
