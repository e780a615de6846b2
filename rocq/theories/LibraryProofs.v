(** The library types against the texts of the built-in types. *)
From Coq Require Import Arith NArith ZArith QArith Bool Ascii String List Lia.
From Coq Require Import Floats.SpecFloat.
From Verif Require Import Str StrFacts SpecLex SpecDate SpecDur SpecBigDec SpecNames SpecBuiltin SpecSerde Tz TzProofs GTypes GProofs DateTime DateProofs Dur DurProofs BigDec BigDecProofs Ints IntsProofs Prim Xml Names NamesProofs Entity SpecScope SpecValue SpecLibrary ValueProofs ValueLib.
From Verif Require SpecDouble Float FloatProofs DisplayProofs.
Import ListNotations.
Local Open Scope string_scope.
Local Open Scope list_scope.
Local Open Scope N_scope.
Arguments lit : simpl never.
Notation atom := SpecLibrary.atom.

(** ** FromStr and Display of the library types, put together from the models of the types *)
Section Library.
(** The years chrono supports; whether the build has overflow checks. *)
Context (lo hi : Z) (chk : bool).

Definition outcome {A B} (r : res A) (f : A -> B) : option B := match r with Ok x => Some (f x) | _ => None end.
Definition datetime_atom (v : datetime) : atom :=
  VDateTime (n_year (dt_date v)) (n_month (dt_date v)) (n_day (dt_date v)) (n_hour (dt_time v)) (n_min (dt_time v)) (n_sec (dt_time v)) (n_nano (dt_time v)) (Some (dt_off v)).
Definition library_readers : list (string * (str -> option atom)) :=
  [ ("String", fun s => Some (VText s));
    ("bool", fun s => outcome (bool_from_str s) VBool);
    ("xs::Decimal", fun s => outcome (decimal_from_str s) (fun d => VDecimal (mantissa d) (Z.to_nat (scale d))));
    ("xs::Date", fun s => outcome (date_from_str lo hi s) (fun d => VDate (n_year (d_value d)) (n_month (d_value d)) (n_day (d_value d)) (d_tz d)));
    ("xs::Time", fun s => outcome (time_from_str s) (fun t => VTime (n_hour (t_value t)) (n_min (t_value t)) (n_sec (t_value t)) (t_tz t)));
    ("xs::DateTime", fun s => outcome (datetime_from_str lo hi s) datetime_atom);
    ("xs::DateTimeStamp", fun s => outcome (stamp_from_str lo hi s) datetime_atom);
    ("xs::Duration", fun s => outcome (dur_from_str chk s) (fun d => VDuration (d_neg d) (d_years d) (d_months d) (d_days d) (d_hours d) (d_minutes d) (d_seconds d)));
    ("xs::GDay", fun s => outcome (gday_from_str s) (fun g => VGDay (gd_value g) (gd_tz g)));
    ("xs::GMonth", fun s => outcome (gmonth_from_str s) (fun g => VGMonth (gm_value g) (gm_tz g)));
    ("xs::GMonthDay", fun s => outcome (gmonthday_from_str s) (fun g => VGMonthDay (gmd_month g) (gmd_day g) (gmd_tz g)));
    ("xs::GYear", fun s => outcome (gyear_from_str s) (fun g => VGYear (gy_value g) (gy_tz g)));
    ("xs::GYearMonth", fun s => outcome (gyearmonth_from_str s) (fun g => VGYearMonth (gym_year g) (gym_month g) (gym_tz g)));
    ("f64", fun s => outcome (Float.f64_from_str s) VDouble) ].
Definition library_read (t : string) (s : str) : option atom :=
  match find (fun p => String.eqb (fst p) t) library_readers with
  | Some p => snd p s
  | None => match assoc (lit t) int_parsers with Some f => outcome (f s) VNumber | None => None end
  end.
Definition given (r : res str) : str := match r with Ok s => s | _ => [] end.
Definition library_show (_ : string) (a : atom) : str :=
  match a with
  | VText s => s
  | VNumber z => bigint_display z
  | VBool b => if b then lit "true" else lit "false"
  | VDecimal i k => decimal_display 5 {| mantissa := i; scale := Z.of_nat k |}
  | VDate y m d tz => date_display {| d_value := {| n_year := y; n_month := m; n_day := d |}; d_tz := tz |}
  | VTime h m s tz => time_display {| t_value := {| n_hour := h; n_min := m; n_sec := s; n_nano := 0 |}; t_tz := tz |}
  | VDateTime y mo d h m s nano tz =>
      datetime_display {| dt_date := {| n_year := y; n_month := mo; n_day := d |}; dt_time := {| n_hour := h; n_min := m; n_sec := s; n_nano := nano |};
                          dt_off := match tz with Some z => z | None => 0%Z end |}
  | VDuration neg y mo d h m s => dur_display {| d_neg := neg; d_years := y; d_months := mo; d_days := d; d_hours := h; d_minutes := m; d_seconds := s |}
  | VGDay d tz => gday_display {| gd_value := d; gd_tz := tz |}
  | VGMonth m tz => gmonth_display {| gm_value := m; gm_tz := tz |}
  | VGMonthDay m d tz => gmonthday_display {| gmd_month := m; gmd_day := d; gmd_tz := tz |}
  | VGYear y tz => given (gyear_display chk {| gy_value := y; gy_tz := tz |})
  | VGYearMonth y m tz => given (gyearmonth_display chk {| gym_year := y; gym_month := m; gym_tz := tz |})
  | VDouble v => f64_display v
  end.
(** String::len counts bytes. *)
Definition library_len (a : atom) : N := match a with VText s => N.of_nat (byte_len s) | _ => 0 end.

(** ** The Rust type of a built-in type *)
Definition same_name (a b : space) : bool :=
  match a, b with
  | SText, SText | SBool, SBool | SDec, SDec | SDate, SDate | STime, STime | SDateTime, SDateTime | SDateTimeZoned, SDateTimeZoned | SDuration, SDuration
  | SGDay, SGDay | SGMonth, SGMonth | SGMonthDay, SGMonthDay | SGYear, SGYear | SGYearMonth, SGYearMonth => true
  | _, _ => false
  end.
Definition single (sp : space) (T : string) : bool :=
  forallb (fun t => String.eqb t T || negb (existsb (fun y => str_eqb (fst y) (lit t) && same_name (snd y) sp) rust_types)) library_types.
Lemma the_type l sp T t : In (l, sp) xsd_builtins -> same_name sp sp = true -> single sp T = true -> library_type l t -> t = T.
Proof.
  intros I S X (sp1 & sp' & J & _ & It & K & [S1 _]). assert (sp1 = sp) by (eapply one_space; eauto). subst sp1.
  assert (sp' = sp) by (destruct sp; try discriminate S; symmetry; exact S1). subst sp'.
  unfold single in X. rewrite forallb_forall in X. specialize (X t It). apply orb_true_iff in X as [X|X]; [apply String.eqb_eq in X; auto|]. exfalso. apply negb_true_iff in X.
  assert (Y : existsb (fun y => str_eqb (fst y) (lit t) && same_name (snd y) sp) rust_types = true) by (apply existsb_exists; exists (lit t, sp); split; auto; cbn [fst snd]; rewrite str_eqb_refl, S; auto). congruence.
Qed.
Lemma bytes_type l t : In (l, SBytes) xsd_builtins -> library_type l t -> t = "String".
Proof.
  intros I (sp1 & sp' & J & _ & It & K & [S1 _]). assert (sp1 = SBytes) by (eapply one_space; eauto). subst sp1.
  assert (X : forallb (fun t => String.eqb t "String" || negb (existsb (fun y => str_eqb (fst y) (lit t) && match snd y with SText | SBytes => true | _ => false end) rust_types)) library_types = true) by (vm_compute; reflexivity).
  rewrite forallb_forall in X. specialize (X t It). apply orb_true_iff in X as [X|X]; [apply String.eqb_eq in X; auto|]. exfalso. apply negb_true_iff in X.
  assert (Y : existsb (fun y => str_eqb (fst y) (lit t) && match snd y with SText | SBytes => true | _ => false end) rust_types = true).
  { apply existsb_exists. exists (lit t, sp'). split; auto. cbn [fst snd]. rewrite str_eqb_refl. destruct sp'; try discriminate S1; reflexivity. }
  congruence.
Qed.

Lemma double_type t : library_type (lit "double") t -> t = "f64".
Proof.
  intros (sp1 & sp' & J & _ & It & K & [S1 _]). assert (sp1 = SFloat 53 1024) by (eapply one_space; eauto; vm_compute; tauto). subst sp1.
  assert (X : forallb (fun t => String.eqb t "f64" || negb (existsb (fun y => str_eqb (fst y) (lit t) && match snd y with SFloat _ _ => true | _ => false end) rust_types)) library_types = true) by (vm_compute; reflexivity).
  rewrite forallb_forall in X. specialize (X t It). apply orb_true_iff in X as [X|X]; [apply String.eqb_eq in X; auto|]. exfalso. apply negb_true_iff in X.
  assert (Y : existsb (fun y => str_eqb (fst y) (lit t) && match snd y with SFloat _ _ => true | _ => false end) rust_types = true).
  { apply existsb_exists. exists (lit t, sp'). split; auto. cbn [fst snd]. rewrite str_eqb_refl. destruct sp'; try discriminate S1; reflexivity. }
  congruence.
Qed.

(** ** No white space *)
Definition ink (s : str) : Prop := forall c, In c s -> is_whitespace c = false.
Lemma ink_nil : ink []. Proof. intros c []. Qed.
Lemma ink_app a b : ink a -> ink b -> ink (a ++ b).
Proof. intros A B c I. apply in_app_or in I as [I|I]; auto. Qed.
Lemma ink_lit s : forallb (fun c => negb (is_whitespace c)) s = true -> ink s.
Proof. intros F c I. rewrite forallb_forall in F. apply F in I. apply negb_true_iff in I. auto. Qed.
Lemma ink_num s n : num s n -> ink s.
Proof. intros X c I. apply num_iff in X as (_ & F & _). rewrite forallb_forall in F. apply F in I. unfold is_whitespace, is_ascii_digit in *. lia. Qed.
Lemma ink_two s n : two s n -> ink s.
Proof. intros [H _]. eapply ink_num; eauto. Qed.
Lemma ink_tz s z : tz_opt s z -> ink s.
Proof.
  intros [|s' z' H]; [apply ink_nil|]. destruct H as [|hs ms h m Hh Hm _ _|hs ms h m Hh Hm _ _]; repeat apply ink_app; eauto using ink_two; apply ink_lit; reflexivity.
Qed.
Lemma ink_fraction s x : SpecDate.fraction s x -> ink s.
Proof. intros [|ds n H]; [apply ink_nil|]. apply ink_app; [apply ink_lit; reflexivity|eapply ink_num; eauto]. Qed.
Lemma ink_year s y : year_lex s y -> ink s.
Proof. intros [s' n H _ _|s' n H _ _]; [eapply ink_num; eauto|apply ink_app; [apply ink_lit; reflexivity|eapply ink_num; eauto]]. Qed.
Lemma ink_any_year s y : any_year s y -> ink s.
Proof. intros [s' n H _ _|s' n H _ _]; [eapply ink_num; eauto|apply ink_app; [apply ink_lit; reflexivity|eapply ink_num; eauto]]. Qed.
Lemma ink_date s y m d tz : xsd_date s y m d tz -> ink s.
Proof. intros (ys & ms & ds & zs & nm & nd & -> & Hy & Hm & Hd & _ & _ & _ & Hz). repeat apply ink_app; eauto using ink_two, ink_year, ink_tz; apply ink_lit; reflexivity. Qed.
Lemma ink_time s h m sec nano tz : xsd_time s h m sec nano tz -> ink s.
Proof. intros (hs & ms & ss & fs & zs & nh & nm & ns & -> & Hh & Hm & Hs & Hf & Hz & _). repeat apply ink_app; eauto using ink_two, ink_fraction, ink_tz; apply ink_lit; reflexivity. Qed.
Lemma ink_comp c s o : is_whitespace c = false -> opt_comp c s o -> ink s.
Proof. intros W [|ds n H]; [apply ink_nil|]. apply ink_app; [eapply ink_num; eauto|]. intros x [<-|[]]. auto. Qed.
Lemma ink_duration s w : dur_lex s w -> ink s.
Proof.
  intros (y & mo & d & t & -> & Hy & Hm & Hd & Ht). repeat apply ink_app; try (eapply ink_comp; [|eassumption]; reflexivity); try (apply ink_lit; destruct (l_neg w); reflexivity).
  destruct Ht as [w|w h m s _ Hh Hmi Hs]; [apply ink_nil|]. repeat apply ink_app; try (eapply ink_comp; [|eassumption]; reflexivity); try (apply ink_lit; reflexivity).
  destruct Hs; [apply ink_nil|..]; repeat apply ink_app; eauto using ink_num; apply ink_lit; reflexivity.
Qed.
Lemma ink_decimal s q : xsd_decimal s q -> ink s.
Proof. intros H c I. assert (X := xsd_decimal_chars _ _ H c I). unfold decimal_char, is_ascii_digit in X. unfold is_whitespace. lia. Qed.

(** ** Digits *)
Lemma run_unique a b c d r r' : forallb is_ascii_digit a = true -> forallb is_ascii_digit b = true -> is_ascii_digit c = false -> is_ascii_digit d = false ->
  a ++ c :: r = b ++ d :: r' -> a = b.
Proof.
  revert b. induction a as [|x a IH]; intros [|y b] A B C D E; auto; cbn [app forallb] in *.
  - injection E as -> _. apply andb_true_iff in B as [B _]. congruence.
  - injection E as <- _. apply andb_true_iff in A as [A _]. congruence.
  - injection E as <- E. apply andb_true_iff in A as [_ A]. apply andb_true_iff in B as [_ B]. f_equal. eauto.
Qed.
Lemma num_all s n : num s n -> forallb is_ascii_digit s = true.
Proof. intros X. apply num_iff in X. tauto. Qed.
Lemma plain_year ys y t : year_lex ys y -> four_digits (ys ++ lit "-" ++ t) -> exists n, SpecDate.digits 4 ys n /\ y = Z.of_N n /\ 0 < n < 2 ^ 31.
Proof.
  intros Y (ys' & t' & n' & E & [D L]). destruct Y as [s n H Ln B|s n H Ln B].
  - assert (X : s = ys') by (eapply run_unique; [eapply num_all; eauto|eapply num_all; eauto| | |exact E]; reflexivity). subst ys'. exists n. repeat split; auto; lia.
  - exfalso. assert (F := num_all _ _ D). destruct ys' as [|c ys']; [discriminate L|]. cbn [app forallb] in *. injection E as <- _. discriminate F.
Qed.
Lemma pad_year y : (0 <= y <= 9999)%Z -> SpecDate.digits 4 (pad 4 (Z.to_N y)) (Z.to_N y).
Proof. intros H. split; [apply num_pad|apply pad_length; [change (10 ^ N.of_nat 4) with 10000; lia|lia]]. Qed.
Lemma four_bound ys n : SpecDate.digits 4 ys n -> n < 10000.
Proof. intros [H L]. apply num_iff in H as (_ & F & V). pose proof (digits_val_bound ys F) as B. rewrite L in B. change (10 ^ N.of_nat 4) with 10000 in B. lia. Qed.
Lemma two_bound s n : two s n -> n < 100.
Proof. intros [H L]. apply num_iff in H as (_ & F & V). pose proof (digits_val_bound s F) as B. rewrite L in B. change (10 ^ N.of_nat 2) with 100 in B. lia. Qed.

(** ** Decimals *)
Lemma digits_no_point s : forallb is_ascii_digit s = true -> ~ In 46 s.
Proof. intros F I. rewrite forallb_forall in F. apply F in I. discriminate. Qed.
Lemma places_sign sg s k : ~ In 46 sg -> fraction_digits s k -> fraction_digits (sg ++ s) k.
Proof.
  intros N [[H E]|(a & b & -> & H & E)]; [left; split; auto; intros I; apply in_app_or in I as [I|I]; auto|].
  right. exists (sg ++ a), b. split; [rewrite <- app_assoc; auto|]. split; auto. intros I. apply in_app_or in I as [I|I]; auto.
Qed.
Lemma places_whole s : forallb is_ascii_digit s = true -> fraction_digits s 0.
Proof. intros F. left. split; auto. apply digits_no_point; auto. Qed.
Lemma places_point a b : forallb is_ascii_digit a = true -> fraction_digits (a ++ lit "." ++ b) (List.length b).
Proof. intros F. right. exists a, b. split; auto. split; auto. apply digits_no_point; auto. Qed.
Lemma first_point (x : N) a b r r' : ~ In x a -> ~ In x b -> a ++ x :: r = b ++ x :: r' -> a = b /\ r = r'.
Proof.
  revert b. induction a as [|c a IH]; intros [|d b] A B E; cbn [app] in E.
  - injection E as ->. auto.
  - injection E as <- _. exfalso. apply B. left. auto.
  - injection E as -> _. exfalso. apply A. left. auto.
  - injection E as <- E. destruct (IH b) as [-> ->]; auto; intros I; [apply A|apply B]; right; auto.
Qed.
Lemma places_unique s k k' : fraction_digits s k -> fraction_digits s k' -> k = k'.
Proof.
  intros [[H ->]|(a & b & -> & H & ->)] [[H' ->]|(a' & b' & E & H' & ->)]; auto.
  - exfalso. apply H. rewrite E. apply in_or_app. right. left. auto.
  - exfalso. apply H'. apply in_or_app. right. left. auto.
  - destruct (first_point 46 a a' b b' H H' E) as [_ ->]. auto.
Qed.
Lemma unsigned_places s q : unsigned_decimal s q -> exists n k, (decimal_value (Z.of_N n) (Z.of_nat k) == q)%Q /\ fraction_digits s k /\
  forall sg i, (forall ds, num ds n -> signed_lex (sg ++ ds) i) -> mantissa_text (sg ++ s) i (Z.of_nat k).
Proof.
  intros H. inversion H as [s' n A|s' n A|a n b m A B|b m B]; subst.
  - exists n, 0%nat. split; [apply value_whole|]. split; [apply places_whole; eapply num_all; eauto|]. intros sg i S. apply mantissa_whole; auto.
  - exists n, 0%nat. split; [apply value_whole|]. split; [apply (places_point s' []); eapply num_all; eauto|]. intros sg i S. rewrite app_assoc. apply (mantissa_point (sg ++ s') [] i). rewrite app_nil_r. auto.
  - exists (n * 10 ^ N.of_nat (List.length b) + m), (List.length b). split; [apply value_both|]. split; [apply places_point; eapply num_all; eauto|].
    intros sg i S. rewrite <- digits_underscores by (eapply num_digits; eauto). rewrite app_assoc. apply mantissa_point. rewrite <- app_assoc. apply S, num_app; auto.
  - exists m, (List.length b). split; [apply value_fraction|]. split; [apply (places_point [] b); reflexivity|].
    intros sg i S. rewrite <- digits_underscores by (eapply num_digits; eauto). apply mantissa_point. apply S; auto.
Qed.
Lemma value_inj i j k : (decimal_value i (Z.of_nat k) == decimal_value j (Z.of_nat k))%Q -> i = j.
Proof.
  unfold decimal_value. intros E. rewrite !ten_power in E. pose proof (ten_nonzero k) as NZ.
  assert (X : (inject_Z i == inject_Z j)%Q).
  { assert (Y : (inject_Z i * / inject_Z (10 ^ Z.of_nat k) * inject_Z (10 ^ Z.of_nat k) == inject_Z j * / inject_Z (10 ^ Z.of_nat k) * inject_Z (10 ^ Z.of_nat k))%Q) by (rewrite E; reflexivity).
    rewrite <- !Qmult_assoc, (Qmult_comm (/ _)), Qmult_inv_r, !Qmult_1_r in Y by exact NZ. exact Y. }
  unfold Qeq in X. cbn in X. lia.
Qed.
Lemma decimal_read s i k : decimal_text s i k -> (Z.of_nat k < 2 ^ 63)%Z -> decimal_from_str s = Ok {| mantissa := i; scale := Z.of_nat k |}.
Proof.
  intros (q & X & Q & P) B. apply decimal_ok. split; [apply lenient_plain|unfold in_i64; lia].
  assert (Y : exists i' k', mantissa_text s i' (Z.of_nat k') /\ fraction_digits s k' /\ (decimal_value i' (Z.of_nat k') == q)%Q).
  { inversion X as [s' q' U|s' q' U|s' q' U]; subst; destruct (unsigned_places _ _ U) as (n & k' & V & L & M).
    - exists (Z.of_N n), k'. split; [apply (M [])|auto]. intros ds D. apply signed_pos, unsigned_plain, num_numu, D.
    - exists (Z.of_N n), k'. split; [apply (M (lit "+"))|split; auto; apply places_sign; auto; vm_compute; intuition discriminate]. intros ds D. apply signed_pos, unsigned_plus, num_numu, D.
    - exists (- Z.of_N n)%Z, k'. split; [apply (M (lit "-"))|split; [apply places_sign; auto; vm_compute; intuition discriminate|rewrite value_opp, V; reflexivity]]. intros ds D. apply signed_neg, num_numu, D. }
  destruct Y as (i' & k' & M & P' & V). assert (k' = k) by (eapply places_unique; eauto). subst k'.
  assert (i' = i). { apply (value_inj i' i k). rewrite V. exact Q. } subst i'. exact M.
Qed.
Lemma dec_long n k : 10 ^ N.of_nat k <= n -> (S k <= List.length (dec n))%nat.
Proof. intros H. pose proof (digits_val_bound (dec n) (dec_digits n)) as B. rewrite dec_val in B. assert (X : 10 ^ N.of_nat k < 10 ^ N.of_nat (List.length (dec n))) by lia. apply N.pow_lt_mono_r_iff in X; lia. Qed.
Lemma decimal_shown s i k : decimal_text s i k -> ((k <= 6)%nat \/ (10 ^ Z.of_nat (k - 6) <= Z.abs i)%Z) -> decimal_text (decimal_display 5 {| mantissa := i; scale := Z.of_nat k |}) i k.
Proof.
  intros _ H. assert (P : plain_scale 5 i (Z.of_nat k)).
  { unfold plain_scale. pose proof (dec_nonempty (Z.abs_N i)) as NE. destruct (Nat.le_gt_cases k 6) as [K|K].
    - destruct (dec (Z.abs_N i)); [congruence|]. cbn [List.length]. lia.
    - destruct H as [H|H]; [lia|]. assert (L : (S (k - 6) <= List.length (dec (Z.abs_N i)))%nat); [|lia]. apply dec_long.
      assert (Z.of_N (10 ^ N.of_nat (k - 6)) = 10 ^ Z.of_nat (k - 6))%Z by (rewrite N2Z.inj_pow; f_equal; lia). lia. }
  destruct (proj2 (display_lexical 5 i (Z.of_nat k)) P) as (q & X & V). exists q. split; auto. split; auto.
  rewrite display_plain, Nat2Z.id by auto. apply places_sign; [unfold sign_of; destruct (i <? 0)%Z; vm_compute; intuition discriminate|].
  destruct (full_cases _ k (dec_nonempty (Z.abs_N i)) (dec_digits (Z.abs_N i))) as [[-> ->]|[(a & b & E & _ & _ & L & ->)|(z & L & ->)]].
  - apply places_whole, dec_digits.
  - rewrite <- L. apply places_point. pose proof (dec_digits (Z.abs_N i)) as D. rewrite E, forallb_app in D. apply andb_true_iff in D. tauto.
  - replace k with (List.length (zeros z ++ dec (Z.abs_N i))) by (rewrite app_length, zeros_length; lia). apply (places_point (lit "0")). reflexivity.
Qed.

(** ** Dates and times *)
Lemma shown_zone z : tz_opt (tz_text z) z <-> xsd_zone z.
Proof. split; [apply tz_opt_xsd|apply tz_text_ok]. Qed.
Lemma shown_year y : (0 < y <= 9999)%Z -> year_lex (format_year y) y.
Proof.
  intros H. unfold format_year. replace ((0 <=? y) && (y <=? 9999))%Z with true by lia. apply year_pos_lex. unfold i32_max. lia.
Qed.
Lemma shown_four y t : (0 < y <= 9999)%Z -> four_digits (format_year y ++ lit "-" ++ t).
Proof.
  intros H. unfold format_year. replace ((0 <=? y) && (y <=? 9999))%Z with true by lia. exists (pad 4 (Z.to_N y)), t, (Z.to_N y). split; auto. apply pad_year. lia.
Qed.
Lemma xsd_date_cases s y m d tz : xsd_date s y m d tz -> four_digits s -> exists ys ms ds zs ny nm nd, s = ys ++ lit "-" ++ ms ++ lit "-" ++ ds ++ zs /\ SpecDate.digits 4 ys ny /\ two ms nm /\ two ds nd /\
  y = Z.of_N ny /\ m = Z.of_N nm /\ d = Z.of_N nd /\ 0 < ny < 10000 /\ (1 <= m <= 12)%Z /\ (1 <= d <= days_in_month y m)%Z /\ tz_opt zs tz.
Proof.
  intros (ys & ms & ds & zs & nm & nd & -> & Hy & Hm & Hd & -> & -> & (R1 & R2) & Hz) F. destruct (plain_year _ _ _ Hy F) as (n & D & -> & B).
  pose proof (four_bound _ _ D). exists ys, ms, ds, zs, n, nm, nd. repeat (split; [auto; lia|]). auto.
Qed.
Lemma date_read s y m d tz : (lo <= 0)%Z -> (9999 <= hi)%Z -> (- Z.of_N DateTime.i64_max <= lo)%Z -> (hi <= Z.of_N DateTime.i64_max)%Z ->
  xsd_date s y m d tz -> four_digits s -> date_from_str lo hi s = Ok {| d_value := {| n_year := y; n_month := m; n_day := d |}; d_tz := tz |}.
Proof.
  intros L1 L2 L3 L4 X F. destruct (xsd_date_cases _ _ _ _ _ X F) as (ys & ms & ds & zs & ny & nm & nd & -> & D & Hm & Hd & -> & -> & -> & B & R1 & R2 & Hz).
  apply date_complete; auto; lia.
Qed.
Lemma date_shown y m d tz : (0 < y <= 9999)%Z -> (1 <= m <= 12)%Z -> (1 <= d <= days_in_month y m)%Z -> xsd_zone tz ->
  xsd_date (format_date {| n_year := y; n_month := m; n_day := d |} ++ tz_text tz) y m d tz.
Proof.
  intros Y M D Hz. pose proof (days_in_month_31 y m) as B. exists (format_year y), (pad 2 (Z.to_N m)), (pad 2 (Z.to_N d)), (tz_text tz), (Z.to_N m), (Z.to_N d).
  unfold format_date. cbn [n_year n_month n_day]. split; [rewrite <- !app_assoc; reflexivity|]. split; [apply shown_year; auto|]. split; [apply two_pad; lia|]. split; [apply two_pad; lia|].
  split; [lia|]. split; [lia|]. split; [lia|]. apply tz_text_ok; auto.
Qed.
Lemma no_point_fraction fs x : SpecDate.fraction fs x -> ~ In 46 fs -> fs = [].
Proof. intros [|ds n H] N; auto. exfalso. apply N. left. auto. Qed.
Lemma time_read s h m sec tz : xsd_time s h m sec 0 tz -> (h < 24)%Z -> ~ In 46 s ->
  time_from_str s = Ok {| t_value := {| n_hour := h; n_min := m; n_sec := sec; n_nano := 0 |}; t_tz := tz |}.
Proof.
  intros (hs & ms & ss & fs & zs & nh & nm & ns & -> & Hh & Hm & Hs & Hf & Hz & -> & -> & -> & R) B N.
  assert (fs = []). { eapply no_point_fraction; eauto. intros I. apply N. do 5 (apply in_or_app; right). apply in_or_app. left. auto. } subst fs.
  apply time_complete; auto; lia.
Qed.
Lemma two_no_point s n : two s n -> ~ In 46 s.
Proof. intros H. apply (two_not_in _ _ _ H). reflexivity. Qed.
Lemma zone_no_point s z : tz_opt s z -> ~ In 46 s.
Proof.
  intros [|s' z' H]; [intros []|]. destruct H as [|hs ms h m Hh Hm _ _|hs ms h m Hh Hm _ _]; repeat apply not_in_app; eauto using two_no_point; vm_compute; intuition discriminate.
Qed.
Lemma time_shown h m sec nano fs zs tz : (0 <= h < 24)%Z -> (0 <= m < 60)%Z -> (0 <= sec < 60)%Z -> (0 <= nano < 10 ^ 9)%Z -> SpecDate.fraction fs nano -> tz_opt zs tz ->
  xsd_time (format_time {| n_hour := h; n_min := m; n_sec := sec; n_nano := nano |} ++ fs ++ zs) h m sec nano tz.
Proof.
  intros H M S Nn F Z0. unfold format_time. cbn [n_hour n_min n_sec n_nano]. replace (sec + nano / 1000000000)%Z with sec by (rewrite Z.div_small by lia; lia).
  exists (pad 2 (Z.to_N h)), (pad 2 (Z.to_N m)), (pad 2 (Z.to_N sec)), fs, zs, (Z.to_N h), (Z.to_N m), (Z.to_N sec).
  split; [rewrite <- !app_assoc; reflexivity|]. do 3 (split; [apply two_pad; lia|]). split; auto. split; auto. repeat (split; [lia|]). left. lia.
Qed.
Lemma format_time_no_point t : (0 <= n_hour t < 100)%Z -> (0 <= n_min t < 100)%Z -> (0 <= n_sec t + n_nano t / 1000000000 < 100)%Z -> ~ In 46 (format_time t).
Proof.
  intros H M S I. unfold format_time in I. rewrite !in_app_iff in I.
  destruct I as [I|[I|[I|[I|I]]]]; [revert I; eapply two_no_point, two_pad; lia|destruct I as [I|[]]; discriminate I|revert I; eapply two_no_point, two_pad; lia|destruct I as [I|[]]; discriminate I|revert I; eapply two_no_point, two_pad; lia].
Qed.
Lemma offset_zone z : (Z.abs z <= 14 * 3600)%Z -> (z mod 60 = 0)%Z -> tz_lex (format_offset z) z /\ exists c t, format_offset z = c :: t /\ is_ascii_digit c = false.
Proof.
  intros A M. split.
  - unfold format_offset. set (q := ((Z.abs z + 30) / 60)%Z). assert (Eq : (60 * q = Z.abs z)%Z) by (unfold q; lia). clearbody q.
    assert (T1 : two (pad 2 (Z.to_N (q / 60))) (Z.to_N (q / 60))) by (apply two_pad; lia). assert (T2 : two (pad 2 (Z.to_N (q mod 60))) (Z.to_N (q mod 60))) by (apply two_pad; lia).
    destruct (Z.ltb_spec z 0).
    + replace z with (- Z.of_N (3600 * Z.to_N (q / 60) + 60 * Z.to_N (q mod 60)))%Z at 1 by lia. apply (tz_west _ _ _ _ T1 T2); lia.
    + replace z with (Z.of_N (3600 * Z.to_N (q / 60) + 60 * Z.to_N (q mod 60)))%Z at 1 by lia. apply (tz_east _ _ _ _ T1 T2); lia.
  - unfold format_offset. eexists _, _. split; [reflexivity|]. destruct (z <? 0)%Z; reflexivity.
Qed.
Lemma nano_form n : (0 <= n < 10 ^ 9)%Z -> format_nano n = [] \/ exists ds, format_nano n = 46 :: ds /\ forallb is_ascii_digit ds = true /\ (List.length ds <= 9)%nat.
Proof.
  change (10 ^ 9)%Z with 1000000000%Z. intros H. unfold format_nano. destruct (Z.eqb_spec n 0) as [->|]; [left; auto|right].
  assert (P : forall w x, x < 10 ^ N.of_nat w -> (1 <= w <= 9)%nat -> exists ds, chr "." :: pad w x = 46 :: ds /\ forallb is_ascii_digit ds = true /\ (List.length ds <= 9)%nat).
  { intros w x X W. exists (pad w x). split; [reflexivity|]. split; [eapply num_all; apply num_pad|]. rewrite pad_length by (auto; lia). lia. }
  destruct (Z.eqb_spec (n mod 1000000) 0); [apply P; [change (10 ^ N.of_nat 3) with 1000; lia|lia]|]. destruct (Z.eqb_spec (n mod 1000) 0); [apply P; [change (10 ^ N.of_nat 6) with 1000000; lia|lia]|].
  apply P; [change (10 ^ N.of_nat 9) with 1000000000; lia|lia].
Qed.
Lemma only_point (x : N) pre a r r' : ~ In x pre -> ~ In x r -> pre ++ x :: r = a ++ x :: r' -> r = r'.
Proof.
  revert a. induction pre as [|y pre IH]; intros [|z a] P R E; cbn [app] in E.
  - congruence.
  - injection E as _ E. exfalso. apply R. rewrite E. apply in_or_app. right. left. auto.
  - injection E as -> _. exfalso. apply P. left. auto.
  - injection E as _ E. apply (IH a); auto. intros I. apply P. right. auto.
Qed.
Lemma short_shown pre fs zone : ~ In 46 pre -> (fs = [] \/ exists ds, fs = 46 :: ds /\ forallb is_ascii_digit ds = true /\ (List.length ds <= 9)%nat) -> ~ In 46 zone ->
  (exists c t, zone = c :: t /\ is_ascii_digit c = false) -> short_fraction (pre ++ fs ++ zone).
Proof.
  intros P F Z0 (c0 & t0 & Ez & C0) a b c E B. destruct F as [->|(ds & -> & D & L)].
  - exfalso. assert (I : In 46 (pre ++ zone)) by (cbn [app] in E; rewrite E; apply in_or_app; right; left; auto). apply in_app_or in I as [I|I]; auto.
  - cbn [app] in E. assert (N : ~ In 46 (ds ++ zone)) by (apply not_in_app; auto; apply digits_no_point; auto).
    assert (X : ds ++ zone = b ++ c) by (apply (only_point 46 pre a); auto).
    destruct (Nat.le_gt_cases (List.length b) (List.length ds)) as [K|K]; [lia|]. exfalso.
    assert (Nth : nth_error (b ++ c) (List.length ds) = Some c0) by (rewrite <- X, nth_error_app2, Nat.sub_diag, Ez by lia; reflexivity).
    rewrite nth_error_app1 in Nth by lia. apply nth_error_In in Nth. apply B in Nth. congruence.
Qed.

(** ** Every type *)
Context (words : str -> str -> Prop).
Notation literal := (literal words).
Notation text := (text words).
Context (L1 : (lo <= 0)%Z) (L2 : (9999 <= hi)%Z) (L3 : (- Z.of_N DateTime.i64_max <= lo)%Z) (L4 : (hi <= Z.of_N DateTime.i64_max)%Z).
Lemma any_year_small ys y : any_year ys y -> (Z.abs y < 2 ^ 31)%Z -> year_lex ys y.
Proof. intros [s n H L B|s n H L B] R; constructor; auto; lia. Qed.
Lemma year_any ys y : year_lex ys y -> any_year ys y.
Proof. intros [s n H L B|s n H L B]; constructor; auto; lia. Qed.
Lemma year_range ys y : any_year ys y -> y <> 0%Z.
Proof. intros [s n H L B|s n H L B]; lia. Qed.

(** Texts that are no free texts have no white space. *)
Lemma filled (a b : str) : a <> [] -> a ++ b <> [].
Proof. intros N E. apply app_eq_nil in E. tauto. Qed.
Lemma filled2 (a b : str) : b <> [] -> a ++ b <> [].
Proof. intros N E. apply app_eq_nil in E. tauto. Qed.
Lemma double_solid s v : SpecDouble.xsd_double s v -> solid s.
Proof.
  assert (Im : forall ms n k, SpecDouble.mantissa_lex ms n k -> ms <> [] /\ ink ms).
  { intros ms n k [t m H|t m H|x y c d m H H' _|y m H]; [split; [apply num_iff in H; tauto|eapply ink_num; eauto]|..].
    - split; [apply filled2; discriminate|apply ink_app; [eapply ink_num; eauto|apply ink_lit; reflexivity]].
    - split; [apply filled2; discriminate|repeat apply ink_app; [eapply ink_num; eauto|apply ink_lit; reflexivity|eapply ink_num; eauto]].
    - split; [discriminate|apply ink_app; [apply ink_lit; reflexivity|eapply ink_num; eauto]]. }
  intros [sg neg ms n k es z w S M Ex _| | |]; [|split; [discriminate|apply ink_lit; reflexivity]..]. destruct (Im _ _ _ M) as [Nm M']. split; [apply filled2, filled; auto|]. repeat apply ink_app; auto.
  - destruct S; apply ink_lit; reflexivity.
  - destruct Ex as [|e t z I X]; [apply ink_nil|]. apply ink_app; [destruct I as [<-|[<-|[]]]; apply ink_lit; reflexivity|]. destruct (integer_solid words _ _ X) as [_ X']. exact X'.
Qed.
Lemma literal_solid l s a : literal l s a -> (forall v, a <> VText v) -> solid s.
Proof.
  intros H N. destruct H as [H W|lo' hi' z I X R|b E I|i k E (q & X & _)|y m d tz E X|h m sec tz E X|y mo d h m sec nano tz E (ds & ts & -> & X & Y)|y mo d h m sec nano z E (ds & ts & -> & X & Y)|w E X|ds n t tz E -> D B Z0|ds n t tz E -> D B Z0|ms ds m d t tz E -> M D B1 B2 Dm Z0|ys y t tz E -> Y Z0|ys y ms m t tz E -> Y M B Z0|v E X].
  - destruct (N s eq_refl).
  - eapply integer_solid; eauto.
  - assert (X : forallb (fun t => match t with [] => false | _ => forallb (fun c => negb (is_whitespace c)) t end) (if b then [lit "true"; lit "1"] else [lit "false"; lit "0"]) = true) by (destruct b; vm_compute; reflexivity).
    rewrite forallb_forall in X. specialize (X s I). split; [destruct s; discriminate|apply ink_lit; destruct s; [discriminate|auto]].
  - split; [|eapply ink_decimal; eauto]. intros ->. assert (U : forall q, ~ unsigned_decimal [] q).
    { intros q' U. remember [] as e. destruct U as [s n A|s n A|a0 n b m A B|b m B]; [subst; apply num_iff in A as (A & _); congruence|..]; apply app_eq_nil in Heqe as [E1 E2]; first [discriminate E1|discriminate E2]. }
    remember [] as e. destruct X as [s q X|s q X|s q X]; subst; try discriminate. eapply U; eauto.
  - split; [|eapply ink_date; eauto]. destruct X as (ys & ms & ds & zs & nm & nd & -> & _). apply filled2. discriminate.
  - split; [|eapply ink_time; eauto]. destruct X as (hs & ms & ss & fs & zs & nh & nm & ns & -> & _). apply filled2. discriminate.
  - split; [apply filled2; discriminate|]. repeat apply ink_app; eauto using ink_date, ink_time. apply ink_lit; reflexivity.
  - split; [apply filled2; discriminate|]. repeat apply ink_app; eauto using ink_date, ink_time. apply ink_lit; reflexivity.
  - split; [|eapply ink_duration; eauto]. destruct X as (y & mo & d & t & -> & _). apply filled2. discriminate.
  - split; [discriminate|]. repeat apply ink_app; eauto using ink_two, ink_tz. apply ink_lit; reflexivity.
  - split; [discriminate|]. repeat apply ink_app; eauto using ink_two, ink_tz. apply ink_lit; reflexivity.
  - split; [discriminate|]. repeat apply ink_app; eauto using ink_two, ink_tz; apply ink_lit; reflexivity.
  - split; [apply filled|apply ink_app; eauto using ink_any_year, ink_tz]. destruct Y as [s n Y _ _|s n Y _ _]; [|discriminate]. apply num_iff in Y. tauto.
  - split; [apply filled2; discriminate|]. repeat apply ink_app; eauto using ink_any_year, ink_two, ink_tz. apply ink_lit; reflexivity.
  - eapply double_solid; eauto.
Qed.

Ltac type_is sp T := match goal with H : library_type ?l ?t |- _ => assert (t = T) by (apply (the_type l sp T t); [vm_compute; tauto|reflexivity|vm_compute; reflexivity|exact H]); subst t end.
Lemma datetime_parts s y mo d h m sec nano tz : xsd_datetime s y mo d h m sec nano tz -> four_digits s -> (h < 24)%Z ->
  exists ys ms ds hs mis ss fs zs ny nm nd nh nmi ns, s = ys ++ lit "-" ++ ms ++ lit "-" ++ ds ++ lit "T" ++ hs ++ lit ":" ++ mis ++ lit ":" ++ ss ++ fs ++ zs /\
    SpecDate.digits 4 ys ny /\ two ms nm /\ two ds nd /\ two hs nh /\ two mis nmi /\ two ss ns /\ SpecDate.fraction fs nano /\ tz_opt zs tz /\
    y = Z.of_N ny /\ mo = Z.of_N nm /\ d = Z.of_N nd /\ h = Z.of_N nh /\ m = Z.of_N nmi /\ sec = Z.of_N ns /\
    0 < ny < 10000 /\ (1 <= mo <= 12)%Z /\ (1 <= d <= days_in_month y mo)%Z /\ nh < 24 /\ nmi < 60 /\ ns < 60.
Proof.
  intros (dt & ts & -> & X & (hs & mis & ss & fs & zs & nh & nmi & ns & -> & Hh & Hm & Hs & Hf & Hz & -> & -> & -> & R)) F B.
  destruct X as (ys & ms & ds & zs0 & nm & nd & -> & Hy & Hmo & Hd & -> & -> & (R1 & R2) & Hz0). inversion Hz0; subst zs0. rewrite app_nil_r in *. rewrite <- !app_assoc in *.
  destruct (plain_year _ _ _ Hy F) as (n & D & -> & Bn). pose proof (four_bound _ _ D).
  exists ys, ms, ds, hs, mis, ss, fs, zs, n, nm, nd, nh, nmi, ns. split; [reflexivity|]. do 8 (split; [auto|]). do 6 (split; [reflexivity|]). split; [lia|]. split; [lia|]. split; [lia|]. lia.
Qed.
Lemma stamp_complete ys ms ds hs mis ss fs zs y mo d h mi sec nano z :
  SpecDate.digits 4 ys y -> two ms mo -> two ds d -> 1 <= mo <= 12 -> 1 <= d -> (Z.of_N d <= days_in_month (Z.of_N y) (Z.of_N mo))%Z ->
  two hs h -> two mis mi -> two ss sec -> h < 24 -> mi < 60 -> sec < 60 -> SpecDate.fraction fs nano -> tz_lex zs z ->
  stamp_from_str lo hi (ys ++ lit "-" ++ ms ++ lit "-" ++ ds ++ lit "T" ++ hs ++ lit ":" ++ mis ++ lit ":" ++ ss ++ fs ++ zs) =
  Ok {| dt_date := {| n_year := Z.of_N y; n_month := Z.of_N mo; n_day := Z.of_N d |};
        dt_time := {| n_hour := Z.of_N h; n_min := Z.of_N mi; n_sec := Z.of_N sec; n_nano := nano |}; dt_off := z |}.
Proof.
  intros Hy Hm Hd Rm Rd Rd' Hh Hmi Hs Lh Lmi Ls Hf Hz. apply stamp_ok.
  exists (ys ++ lit "-" ++ ms ++ lit "-" ++ ds ++ lit "T" ++ hs ++ lit ":" ++ mis ++ lit ":" ++ ss ++ fs), zs.
  cbn [dt_date dt_time dt_off n_year n_month n_day n_hour n_min n_sec n_nano].
  split; [rewrite <- !app_assoc; reflexivity|]. split.
  - exists ys, ms, ds, (chr "T"), hs, mis, ss, fs, y, mo, d, h, mi, sec, nano.
    split; [reflexivity|]. do 3 (split; [auto; fail|]). split; [auto|]. do 7 (split; [auto; fail|]).
    split; [pose proof (four_bound _ _ Hy); unfold calendar; lia|]. split; [auto|]. split; [auto|]. unfold clock. lia.
  - destruct Hz as [|hs' ms' h' m' Hh' Hm' B1 B2|hs' ms' h' m' Hh' Hm' B1 B2]; [apply sz_utc|apply sz_east|apply sz_west]; exists hs', ms', h', m'; repeat (split; [auto; fail|]); lia.
Qed.
Lemma datetime_shown y mo d h m sec nano z : (0 < y <= 9999)%Z -> (1 <= mo <= 12)%Z -> (1 <= d <= days_in_month y mo)%Z -> (0 <= h < 24)%Z -> (0 <= m < 60)%Z -> (0 <= sec < 60)%Z -> (0 <= nano < 10 ^ 9)%Z ->
  (Z.abs z <= 14 * 3600)%Z -> (z mod 60 = 0)%Z ->
  let s := datetime_display {| dt_date := {| n_year := y; n_month := mo; n_day := d |}; dt_time := {| n_hour := h; n_min := m; n_sec := sec; n_nano := nano |}; dt_off := z |} in
  xsd_datetime s y mo d h m sec nano (Some z) /\ four_digits s /\ short_fraction s.
Proof.
  intros Y M D H Mi S Nn A Z0. unfold datetime_display. cbn [dt_date dt_time dt_off n_nano]. replace (nano mod 1000000000)%Z with nano by (rewrite Z.mod_small; lia).
  destruct (offset_zone z A Z0) as [Tz Hd]. pose proof (format_nano_fraction nano Nn) as F. split; [|split].
  - exists (format_date {| n_year := y; n_month := mo; n_day := d |}), (format_time {| n_hour := h; n_min := m; n_sec := sec; n_nano := nano |} ++ format_nano nano ++ format_offset z).
    split; auto. split; [|apply time_shown; auto; constructor; auto]. assert (X := date_shown y mo d None Y M D Logic.I). cbn [tz_text] in X. rewrite app_nil_r in X. exact X.
  - unfold format_date. cbn [n_year n_month n_day]. rewrite <- !app_assoc. apply shown_four. auto.
  - match goal with |- short_fraction (?a ++ ?b ++ ?c ++ ?e ++ ?f) => replace (a ++ b ++ c ++ e ++ f) with ((a ++ b ++ c) ++ e ++ f) by (rewrite <- !app_assoc; reflexivity) end.
    apply short_shown; auto; [|apply nano_form; auto|eapply zone_no_point; constructor; eauto].
    pose proof (days_in_month_31 y mo) as B31. intros I. rewrite !in_app_iff in I. destruct I as [I|[I|I]].
    + unfold format_date in I. cbn [n_year n_month n_day] in I. rewrite !in_app_iff in I. destruct I as [I|[I|[I|[I|I]]]].
      * unfold format_year in I. replace ((0 <=? y) && (y <=? 9999))%Z with true in I by lia. revert I. eapply digits_no_point, num_all, num_pad.
      * destruct I as [I|[]]; discriminate I.
      * revert I. eapply two_no_point, two_pad. lia.
      * destruct I as [I|[]]; discriminate I.
      * revert I. eapply two_no_point, two_pad. lia.
    + destruct I as [I|[]]; discriminate I.
    + revert I. apply format_time_no_point; cbn [n_hour n_min n_sec n_nano]; rewrite ?Z.div_small by lia; lia.
Qed.

Lemma read_integer t f s z : assoc (lit t) int_parsers = Some f -> f s = Ok z -> library_read t s = Some (VNumber z).
Proof.
  intros A F. unfold library_read. destruct (find (fun p => String.eqb (fst p) t) library_readers) as [[k g]|] eqn:E; [|rewrite A, F; reflexivity].
  exfalso. apply find_some in E as [I E]. cbn [fst] in E. apply String.eqb_eq in E. subst k.
  assert (X : forallb (fun p => match assoc (lit (fst p)) int_parsers with Some _ => false | None => true end) library_readers = true) by (vm_compute; reflexivity).
  rewrite forallb_forall in X. specialize (X _ I). cbn [fst] in X. rewrite A in X. discriminate.
Qed.
Lemma comp_value w n : whole (l_sec w) n -> sec_value (l_sec w) = b64_of_N n.
Proof. intros [[-> ->]| ->]; reflexivity. Qed.
Lemma text_complete l t s a : library_type l t -> text l s a -> library_read t s = Some a /\ text l (library_show t a) a.
Proof.
  intros T [H F]. destruct H as [H W|lo' hi' z I X R|b -> I|i k -> X|y m d tz -> X|h m sec tz -> X|y mo d h m sec nano tz -> X|y mo d h m sec nano z -> X|w -> X|ds n r tz -> -> D B Z0|ds n r tz -> -> D B Z0|ms ds m d r tz -> -> M D B1 B2 Dm Z0|ys y r tz -> -> Y Z0|ys y ms m r tz -> -> Y M B Z0|v -> X]; cbn [faithful] in F.
  - assert (t = "String") by (destruct H as [H|H]; [eapply text_type; eauto|eapply bytes_type; eauto]). subst t. split; [reflexivity|]. split; [constructor; auto|exact Logic.I].
  - destruct (integer_type _ _ _ _ _ I R T) as (_ & f & Af & Rd & _). split.
    + apply (read_integer t f); auto. apply Rd; auto. intros (t0 & E). eapply F; eauto.
    + split; [apply (l_integer words l _ lo' hi'); auto; apply bigint_display_lex|]. cbn [faithful library_show]. intros lo2 hi2 t0 I2 E. assert (X2 := one_space _ _ _ I I2). injection X2 as <- <-.
      destruct lo' as [x|]; auto. destruct R as [R _]. assert (z < 0)%Z; [|lia]. unfold bigint_display in E. destruct (z <? 0)%Z eqn:K; [lia|]. exfalso. assert (D := dec_digits (Z.abs_N z)). rewrite E in D. discriminate D.
  - type_is SBool "bool". subst s. split; [destruct b; reflexivity|]. split; [constructor; auto; destruct b; left; reflexivity|]. reflexivity.
  - type_is SDec "xs::Decimal". destruct F as (F2 & F3). split.
    + cbn. rewrite (decimal_read _ _ _ X F3). cbn. rewrite Nat2Z.id. reflexivity.
    + split; [constructor; auto; eapply decimal_shown; eauto|]. cbn [faithful]. auto.
  - type_is SDate "xs::Date". split.
    + cbn. rewrite (date_read s y m d tz); auto.
    + destruct (xsd_date_cases _ _ _ _ _ X F) as (ys & ms & ds & zs & ny & nm & nd & -> & D & Hm & Hd & Ey & Em & Ed & B & R1 & R2 & Hz). cbn [library_show]. unfold date_display. cbn [d_value d_tz]. split.
      * constructor; auto. apply date_shown; auto; [lia|]. eapply tz_opt_xsd; eauto.
      * cbn [faithful]. unfold format_date. cbn [n_year n_month n_day]. rewrite <- !app_assoc. apply shown_four. lia.
  - type_is STime "xs::Time". destruct F as [F1 F2]. split.
    + cbn. rewrite (time_read s h m sec tz); auto.
    + destruct X as (hs & ms & ss & fs & zs & nh & nm & ns & -> & Hh & Hm & Hs & Hf & Hz & -> & -> & -> & R). cbn [library_show]. unfold time_display. cbn [t_value t_tz]. apply tz_opt_xsd in Hz.
      assert (Z1 := tz_text_ok _ Hz). split.
      * constructor; auto. apply (time_shown _ _ _ 0 [] (tz_text tz)); try lia; auto. constructor.
      * cbn [faithful]. split; auto. apply not_in_app; [|eapply zone_no_point; eauto]. apply format_time_no_point; cbn [n_hour n_min n_sec n_nano]; rewrite ?Z.div_small by lia; lia.
  - type_is SDateTime "xs::DateTime". destruct F as (F1 & F2 & F3 & F4). destruct tz as [z|]; [|congruence].
    destruct (datetime_parts _ _ _ _ _ _ _ _ _ X F1 F2) as (ys & ms & ds & hs & mis & ss & fs & zs & ny & nm & nd & nh & nmi & ns & -> & D & Hm & Hd & Hh & Hmi & Hs & Hf & Hz & -> & -> & -> & -> & -> & -> & B1 & B2 & B3 & B4 & B5 & B6). split.
    + cbn. rewrite (datetime_complete lo hi ys ms ds hs mis ss fs zs ny nm nd nh nmi ns nano (Some z)); auto; lia.
    + apply tz_opt_xsd in Hz. destruct Hz as [Z1 Z2]. assert (Nb := fraction_bound _ _ Hf).
      destruct (datetime_shown (Z.of_N ny) (Z.of_N nm) (Z.of_N nd) (Z.of_N nh) (Z.of_N nmi) (Z.of_N ns) nano z) as (S1 & S2 & S3); try lia.
      cbn [library_show]. split; [constructor; auto|]. cbn [faithful]. auto.
  - type_is SDateTimeZoned "xs::DateTimeStamp". destruct F as (F1 & F2 & F3 & F4).
    destruct (datetime_parts _ _ _ _ _ _ _ _ _ X F1 F2) as (ys & ms & ds & hs & mis & ss & fs & zs & ny & nm & nd & nh & nmi & ns & -> & D & Hm & Hd & Hh & Hmi & Hs & Hf & Hz & -> & -> & -> & -> & -> & -> & B1 & B2 & B3 & B4 & B5 & B6). split.
    + inversion Hz as [|zs' z' Hz' E1 E2]; subst. cbn. rewrite (stamp_complete ys ms ds hs mis ss fs zs ny nm nd nh nmi ns nano z); auto; lia.
    + apply tz_opt_xsd in Hz. destruct Hz as [Z1 Z2]. assert (Nb := fraction_bound _ _ Hf).
      destruct (datetime_shown (Z.of_N ny) (Z.of_N nm) (Z.of_N nd) (Z.of_N nh) (Z.of_N nmi) (Z.of_N ns) nano z) as (S1 & S2 & S3); try lia.
      cbn [library_show]. split; [apply l_stamp; auto|]. cbn [faithful]. auto.
  - type_is SDuration "xs::Duration". destruct F as (w' & n & X' & Wn & Bn & Es & -> & -> & -> & -> & -> & -> & B1 & B2 & B3 & B4 & B5). rewrite Es. clear w Es X. assert (Sv := comp_value _ _ Wn). split.
    + cbn. rewrite (from_str_in_range chk s w' X'); [cbn; rewrite Sv; reflexivity|]. unfold SpecDur.in_range. repeat (split; [auto; fail|]). destruct Wn as [[-> _]| ->]; auto. split; lia.
    + cbn [library_show]. set (d := {| d_neg := l_neg w'; d_years := comp (l_years w'); d_months := comp (l_months w'); d_days := comp (l_days w'); d_hours := comp (l_hours w'); d_minutes := comp (l_minutes w'); d_seconds := b64_of_N n |}).
      assert (Dl := display_lex d n Bn eq_refl).
      assert (Wd : whole (l_sec (display_lit d n)) n) by (cbn [display_lit l_sec]; destruct (0 <? n) eqn:E; [right; auto|left; split; auto; lia]).
      assert (Y : comp (l_years (display_lit d n)) = d_years d). { cbn [display_lit l_years]. match goal with |- comp (if ?b then _ else _) = _ => destruct b eqn:E end; [cbn [comp]; apply andb_true_iff in E as [E _]; lia|apply comp_opt]. }
      assert (V : VDuration (l_neg w') (comp (l_years w')) (comp (l_months w')) (comp (l_days w')) (comp (l_hours w')) (comp (l_minutes w')) (b64_of_N n) =
        VDuration (l_neg (display_lit d n)) (comp (l_years (display_lit d n))) (comp (l_months (display_lit d n))) (comp (l_days (display_lit d n))) (comp (l_hours (display_lit d n))) (comp (l_minutes (display_lit d n))) (sec_value (l_sec (display_lit d n)))).
      { rewrite Y, (comp_value _ _ Wd). cbn [display_lit l_neg l_months l_days l_hours l_minutes]. rewrite !comp_opt. reflexivity. }
      split; [rewrite V; apply l_duration; auto|]. rewrite V. cbn [faithful]. exists (display_lit d n), n. rewrite (comp_value _ _ Wd), Y. cbn [display_lit l_neg l_months l_days l_hours l_minutes]. rewrite !comp_opt. cbn [d d_neg d_years d_months d_days d_hours d_minutes].
      repeat (split; [auto; fail|]). auto.
  - type_is SGDay "xs::GDay". assert (Hz := tz_opt_xsd _ _ Z0). split.
    + cbn. rewrite (proj2 (gday_ok _ {| gd_value := Z.of_N n; gd_tz := tz |})); [reflexivity|]. exists ds, n, r. cbn. auto.
    + split; [|exact Logic.I]. cbn [library_show]. unfold gday_display. cbn [gd_value gd_tz]. rewrite pad_signed_pos, N2Z.id by lia. apply (l_gday words _ _ (pad 2 n) n (tz_text tz) tz); auto; [apply two_pad; lia|apply tz_text_ok; auto].
  - type_is SGMonth "xs::GMonth". assert (Hz := tz_opt_xsd _ _ Z0). split.
    + cbn. rewrite (proj2 (gmonth_ok _ {| gm_value := Z.of_N n; gm_tz := tz |})); [reflexivity|]. exists ds, n, r. cbn. auto.
    + split; [|exact Logic.I]. cbn [library_show]. unfold gmonth_display. cbn [gm_value gm_tz]. rewrite pad_signed_pos, N2Z.id by lia. apply (l_gmonth words _ _ (pad 2 n) n (tz_text tz) tz); auto; [apply two_pad; lia|apply tz_text_ok; auto].
  - type_is SGMonthDay "xs::GMonthDay". assert (Hz := tz_opt_xsd _ _ Z0). split.
    + cbn. rewrite (proj2 (gmonthday_ok _ {| gmd_month := Z.of_N m; gmd_day := Z.of_N d; gmd_tz := tz |})); [reflexivity|]. exists ms, ds, m, d, r. cbn. auto 10.
    + split; [|exact Logic.I]. cbn [library_show]. unfold gmonthday_display. cbn [gmd_month gmd_day gmd_tz]. rewrite !pad_signed_pos, !N2Z.id by lia. assert (B3 := two_bound _ _ D).
      apply (l_gmonthday words _ _ (pad 2 m) (pad 2 d) m d (tz_text tz) tz); auto; [apply two_pad; lia|apply two_pad; lia|apply tz_text_ok; auto].
  - type_is SGYear "xs::GYear". assert (Hz := tz_opt_xsd _ _ Z0). assert (Yl := any_year_small _ _ Y F). assert (Y0 := year_range _ _ Y). split.
    + cbn. rewrite (proj2 (gyear_ok _ {| gy_value := y; gy_tz := tz |})); [reflexivity|]. exists ys, r. cbn. auto.
    + destruct (gyear_round_trip chk y tz {| gy_value := y; gy_tz := tz |}) as (s' & E1 & E2); auto; [unfold i32_min, i32_max; lia|unfold gyear_new; destruct (Z.eqb_spec y 0); [contradiction|reflexivity]|].
      cbn [library_show]. rewrite E1. cbn [given]. apply gyear_ok in E2 as (ys' & r' & -> & Y' & Z'). cbn in Y', Z'. split; [apply (l_gyear words _ _ ys' y r' tz); auto; apply year_any; auto|exact F].
  - type_is SGYearMonth "xs::GYearMonth". assert (Hz := tz_opt_xsd _ _ Z0). assert (Yl := any_year_small _ _ Y F). assert (Y0 := year_range _ _ Y). split.
    + cbn. rewrite (proj2 (gyearmonth_ok _ {| gym_year := y; gym_month := Z.of_N m; gym_tz := tz |})); [reflexivity|]. exists ys, ms, m, r. cbn. auto 10.
    + destruct (gyearmonth_round_trip chk y (Z.of_N m) tz {| gym_year := y; gym_month := Z.of_N m; gym_tz := tz |}) as (s' & E1 & E2); auto; [unfold i32_min, i32_max; lia|unfold gyearmonth_new; destruct (Z.eqb_spec y 0); [contradiction|]; replace ((1 <=? Z.of_N m) && (Z.of_N m <=? 12))%Z with true by lia; reflexivity|].
      cbn [library_show]. rewrite E1. cbn [given]. apply gyearmonth_ok in E2 as (ys' & ms' & m' & r' & -> & Y' & M' & B' & Z' & Em). cbn in Y', Z', Em. split; [|exact F]. rewrite Em. apply (l_gyearmonth words _ _ ys' y ms' m' r' tz); auto. apply year_any; auto.
  - assert (t = "f64") by (apply double_type; auto). subst t. split; [cbn; rewrite (DisplayProofs.read_literal _ _ X); reflexivity|]. split; [|exact F]. apply l_double; auto. apply DisplayProofs.display_floating; auto.
    eapply DisplayProofs.read_value, DisplayProofs.read_literal; eauto.
Qed.
(** The built-in types with a text here: all but the lists and xs:float. *)
Lemma library_complete l : In l texted -> complete atom text library_read library_show (lit l).
Proof.
  intros I. split.
  - destruct (in_dec string_dec l ["hexBinary"; "base64Binary"]) as [J|J].
    + exists "String", SBytes, SText. split; [destruct J as [<-|[<-|[]]]; vm_compute; tauto|]. split; [discriminate|]. split; [left; auto|]. split; [left; reflexivity|]. split; [exact Logic.I|auto].
    + destruct (string_dec l "double") as [->|Nd]; [exists "f64", (SFloat 53 1024), (SFloat 53 1024); split; [vm_compute; tauto|]; split; [discriminate|]; split; [vm_compute; tauto|]; split; [vm_compute; tauto|]; split; [cbn; lia|left; cbn; lia]|].
      assert (X : forallb (fun l => existsb (String.eqb l) ["hexBinary"; "base64Binary"; "double"] || existsb (fun x => if str_eqb (fst x) (lit l) then existsb (fun t => existsb (fun y => if same_name (snd x) (snd y) || space_eqb (snd x) (snd y) then str_eqb (fst y) (lit t) else false) rust_types) library_types else false) xsd_builtins) texted = true) by (vm_compute; reflexivity).
      rewrite forallb_forall in X. specialize (X l I). apply orb_true_iff in X as [X|X]; [exfalso; apply existsb_exists in X as (x & Ix & Ex); apply String.eqb_eq in Ex; subst x; destruct Ix as [E|[E|[E|[]]]]; subst; [apply J; left|apply J; right; left|apply Nd]; reflexivity|].
      apply existsb_exists in X as ([k sp] & J1 & X). cbn [fst snd] in X. destruct (str_eqb k (lit l)) eqn:E; [|discriminate X]. apply str_eqb_eq in E. subst k.
      apply existsb_exists in X as (t & It & X). apply existsb_exists in X as ([k sp'] & K & X). cbn [fst snd] in X. destruct (same_name sp sp' || space_eqb sp sp') eqn:E; [|discriminate X]. apply str_eqb_eq in X. subst k. rename E into X.
      assert (sp = sp' /\ sp <> STexts /\ sp <> SFloat 24 128).
      { destruct sp as [| | | |a1 b1| |a1 b1| | | | | | | | | |], sp' as [| | | |a2 b2| |a2 b2| | | | | | | | | |]; try discriminate X; try (repeat split; congruence).
        cbn in X. apply andb_true_iff in X as [X1 X2]. split; [f_equal; [destruct a1, a2|destruct b1, b2]; try discriminate; auto; f_equal; lia|split; discriminate]. }
      destruct H as (<- & N1 & N2). exists t, sp, sp. split; auto. split; auto. split; auto. split; auto. assert (R : sub_space sp sp) by (destruct sp; cbn; auto; lia). split; auto.
  - intros t s a Lt Tx. destruct (text_complete _ _ _ _ Lt Tx) as [R S]. split; auto. split; auto. intros So.
    destruct a as [v| | | | | | | | | | | | |]; [|eapply literal_solid; [exact (proj1 S)|discriminate]..].
    destruct Tx as [Tx _]. inversion Tx; subst. exact So.
Qed.

(** ** Types that read nothing else *)
Lemma read_parser t f s a : assoc (lit t) int_parsers = Some f -> library_read t s = Some a -> exists z, f s = Ok z /\ a = VNumber z.
Proof.
  intros A R. unfold library_read in R. destruct (find (fun p => String.eqb (fst p) t) library_readers) as [[k g]|] eqn:E.
  - exfalso. apply find_some in E as [I E]. cbn [fst] in E. apply String.eqb_eq in E. subst k.
    assert (X : forallb (fun p => match assoc (lit (fst p)) int_parsers with Some _ => false | None => true end) library_readers = true) by (vm_compute; reflexivity).
    rewrite forallb_forall in X. specialize (X _ I). cbn [fst] in X. rewrite A in X. discriminate.
  - rewrite A in R. destruct (f s) as [z| |]; try discriminate R. injection R as <-. eauto.
Qed.
Lemma exact_signed l a b : In (lit l, SInt (Some a) (Some b)) xsd_builtins -> (a < 0 <= b)%Z -> assoc (lit l) built_in_table <> None ->
  (forall r, assoc (lit l) built_in_table = Some r -> assoc r int_parsers = Some (parse_signed a b)) -> exact atom text library_read (lit l).
Proof.
  intros J B _ P t s v Lt R. destruct (integer_type _ _ _ _ 0%Z J ltac:(split; lia) Lt) as (As & _). apply (read_parser t _ s v (P _ As)) in R as (z & E & ->). apply parse_signed_iff in E as [X R].
  split; [apply (l_integer words _ _ (Some a) (Some b)); auto|]. cbn [faithful]. intros lo2 hi2 t0 I2 _. assert (X2 := one_space _ _ _ J I2). injection X2 as <- <-. lia.
Qed.
Lemma exact_unsigned l b : In (lit l, SInt (Some 0%Z) (Some (Z.of_N b))) xsd_builtins ->
  (forall r, assoc (lit l) built_in_table = Some r -> assoc r int_parsers = Some (parse_uint b)) -> exact atom text library_read (lit l).
Proof.
  intros J P t s v Lt R. destruct (integer_type _ _ _ _ 0%Z J ltac:(split; lia) Lt) as (As & _). apply (read_parser t _ s v (P _ As)) in R as (z & E & ->). apply parse_uint_iff in E as (X & R & N).
  split; [apply (l_integer words _ _ (Some 0%Z) (Some (Z.of_N b))); auto|]. cbn [faithful]. intros lo2 hi2 t0 I2 E. destruct (N _ E).
Qed.
Lemma library_exact l : In l exacted -> exact atom text library_read (lit l).
Proof.
  intros I. cbn [exacted In] in I.
  destruct I as [<-|[<-|[<-|[<-|[<-|[<-|[<-|[<-|[<-|[<-|[<-|[<-|[<-|[<-|[]]]]]]]]]]]]]]].
  2: apply (exact_signed "long" (-9223372036854775808) 9223372036854775807); [vm_compute; tauto|lia|discriminate|intros r E; vm_compute in E; injection E as <-; reflexivity].
  2: apply (exact_signed "int" (-2147483648) 2147483647); [vm_compute; tauto|lia|discriminate|intros r E; vm_compute in E; injection E as <-; reflexivity].
  2: apply (exact_signed "short" (-32768) 32767); [vm_compute; tauto|lia|discriminate|intros r E; vm_compute in E; injection E as <-; reflexivity].
  2: apply (exact_signed "byte" (-128) 127); [vm_compute; tauto|lia|discriminate|intros r E; vm_compute in E; injection E as <-; reflexivity].
  2: apply (exact_unsigned "unsignedLong" 18446744073709551615); [vm_compute; tauto|intros r E; vm_compute in E; injection E as <-; reflexivity].
  2: apply (exact_unsigned "unsignedInt" 4294967295); [vm_compute; tauto|intros r E; vm_compute in E; injection E as <-; reflexivity].
  2: apply (exact_unsigned "unsignedShort" 65535); [vm_compute; tauto|intros r E; vm_compute in E; injection E as <-; reflexivity].
  2: apply (exact_unsigned "unsignedByte" 255); [vm_compute; tauto|intros r E; vm_compute in E; injection E as <-; reflexivity].
  - intros t s a T R. type_is SBool "bool". cbn in R. unfold bool_from_str in R. destruct (str_eqb s (lit "true")) eqn:E1; [apply str_eqb_eq in E1|destruct (str_eqb s (lit "false")) eqn:E2; [apply str_eqb_eq in E2|discriminate R]]; injection R as <-; subst s;
      (split; [constructor; [reflexivity|left; reflexivity]|reflexivity]).
  - intros t s a T R. type_is SGDay "xs::GDay". cbn in R. destruct (gday_from_str s) as [g| |] eqn:E; try discriminate R. injection R as <-. apply gday_ok in E as (ds & n & r & -> & D & B & Z0 & ->). split; [|exact Logic.I]. apply (l_gday words _ _ ds n r); auto.
  - intros t s a T R. type_is SGMonth "xs::GMonth". cbn in R. destruct (gmonth_from_str s) as [g| |] eqn:E; try discriminate R. injection R as <-. apply gmonth_ok in E as (ds & n & r & -> & D & B & Z0 & ->). split; [|exact Logic.I]. apply (l_gmonth words _ _ ds n r); auto.
  - intros t s a T R. type_is SGMonthDay "xs::GMonthDay". cbn in R. destruct (gmonthday_from_str s) as [g| |] eqn:E; try discriminate R. injection R as <-. apply gmonthday_ok in E as (ms & ds & m & d & r & -> & M & D & B1 & B2 & Dm & Z0 & -> & ->). split; [|exact Logic.I]. apply (l_gmonthday words _ _ ms ds m d r); auto.
  - intros t s a T R. type_is SGYear "xs::GYear". cbn in R. destruct (gyear_from_str s) as [g| |] eqn:E; try discriminate R. injection R as <-. apply gyear_ok in E as (ys & r & -> & Y & Z0). split; [apply (l_gyear words _ _ ys _ r); auto; apply year_any; auto|]. cbn [faithful]. destruct Y; lia.
  - intros t s a T R. type_is SGYearMonth "xs::GYearMonth". cbn in R. destruct (gyearmonth_from_str s) as [g| |] eqn:E; try discriminate R. injection R as <-. apply gyearmonth_ok in E as (ys & ms & m & r & -> & Y & M & B & Z0 & ->).
    split; [apply (l_gyearmonth words _ _ ys _ ms m r); auto; apply year_any; auto|]. cbn [faithful]. destruct Y; lia.
Qed.
Lemma not_number l lo' hi' : In l ["boolean"; "date"; "time"; "dateTime"; "dateTimeStamp"; "duration"; "gDay"; "gMonth"; "gMonthDay"; "gYear"; "gYearMonth"; "double"] -> ~ In (lit l, SInt lo' hi') xsd_builtins.
Proof.
  intros I J. assert (X : forallb (fun l => forallb (fun x => match snd x with SInt _ _ => negb (str_eqb (fst x) (lit l)) | _ => true end) xsd_builtins) ["boolean"; "date"; "time"; "dateTime"; "dateTimeStamp"; "duration"; "gDay"; "gMonth"; "gMonthDay"; "gYear"; "gYearMonth"; "double"] = true) by (vm_compute; reflexivity).
  rewrite forallb_forall in X. specialize (X l I). rewrite forallb_forall in X. specialize (X _ J). cbn [fst snd] in X. rewrite str_eqb_refl in X. discriminate X.
Qed.
Lemma library_comparable l : (exists lo hi, In (l, SInt lo hi) xsd_builtins) \/ l = lit "decimal" -> comparable atom text atom_order l.
Proof.
  intros H s s' a b [A _] [B _]. assert (X : forall s a, literal l s a -> (exists z, a = VNumber z /\ l <> lit "decimal") \/ exists i k, a = VDecimal i k /\ l = lit "decimal").
  { intros r c C. assert (D : l <> lit "decimal" -> forall r c, literal l r c -> exists z, c = VNumber z).
    { intros Nd r0 c0 C0. destruct H as [(lo' & hi' & I)|E]; [|contradiction].
      destruct C0 as [K W|lo2 hi2 z J X R|b0 E J|i k E X|y m d tz E X|h m sec tz E X|y mo d h m sec nano tz E X|y mo d h m sec nano z E X|w E X|ds n t tz E E2 D B0 Z0|ds n t tz E E2 D B0 Z0|ms ds m d t tz E E2 M D B1 B2 Dm Z0|ys y t tz E E2 Y Z0|ys y ms m t tz E E2 Y M B0 Z0|v E X]; eauto; exfalso;
        try (destruct K as [K|K]; assert (Q := one_space _ _ _ I K); discriminate Q); try contradiction; subst l;
        (eapply not_number; [|exact I]; cbn; tauto). }
    assert (Dc : forall r c, literal (lit "decimal") r c -> exists i k, c = VDecimal i k).
    { intros r0 c0 C0. remember (lit "decimal") as e eqn:Ee. destruct C0 as [K W|lo2 hi2 z J X R|b0 E J|i k E X|y m d tz E X|h m sec tz E X|y mo d h m sec nano tz E X|y mo d h m sec nano z E X|w E X|ds n t tz E E2 D0 B0 Z0|ds n t tz E E2 D0 B0 Z0|ms ds m d t tz E E2 M D0 B1 B2 Dm Z0|ys y t tz E E2 Y Z0|ys y ms m t tz E E2 Y M B0 Z0|v E X]; eauto; exfalso; subst e;
        try discriminate E; try (destruct K as [K|K]; (assert (Q := one_space _ _ _ K ltac:(right; right; left; reflexivity)); discriminate Q)); assert (Q := one_space _ _ _ J ltac:(right; right; left; reflexivity)); discriminate Q. }
    destruct (list_eq_dec N.eq_dec l (lit "decimal")) as [E|E]; [right|left].
    - rewrite E in C. destruct (Dc _ _ C) as (i & k & ->). eauto.
    - destruct (D E _ _ C) as (z & ->). eauto. }
  destruct (X _ _ A) as [(z & -> & N)|(i & k & -> & E)], (X _ _ B) as [(z' & -> & N')|(i' & k' & -> & E')]; try contradiction; discriminate.
Qed.
Lemma moments_comparable l : l = lit "dateTime" \/ l = lit "dateTimeStamp" -> comparable atom text atom_order l.
Proof.
  intros H. assert (X : forall s a, text l s a -> exists y mo d h m sec nano z, a = VDateTime y mo d h m sec nano (Some z) /\ proper_moment y mo d h m sec nano z = true).
  { intros s a [L F]. assert (I : In (l, SDateTime) xsd_builtins \/ In (l, SDateTimeZoned) xsd_builtins) by (destruct H as [-> | ->]; vm_compute; tauto).
    assert (G : forall y mo d h m sec nano z, xsd_datetime s y mo d h m sec nano (Some z) -> faithful l s (VDateTime y mo d h m sec nano (Some z)) -> proper_moment y mo d h m sec nano z = true).
    { intros y mo d h m sec nano z X (F1 & F2 & F3 & F4).
      destruct (datetime_parts _ _ _ _ _ _ _ _ _ X F1 F2) as (ys & ms & ds & hs & mis & ss & fs & zs & ny & nm & nd & nh & nmi & ns & -> & D & Hm & Hd & Hh & Hmi & Hs & Hf & Hz & -> & -> & -> & -> & -> & -> & B1 & B2 & B3 & B4 & B5 & B6).
      apply tz_opt_xsd in Hz. destruct Hz as [Z1 Z2]. assert (Nb := fraction_bound _ _ Hf). unfold proper_moment. cbn [forallb fst snd]. rewrite !andb_true_iff. repeat split; lia. }
    destruct L as [K W|lo2 hi2 z J X R|b0 E J|i k E X|y m d tz E X|h m sec tz E X|y mo d h m sec nano tz E X|y mo d h m sec nano z E X|w E X|ds n t tz E E2 D0 B0 Z0|ds n t tz E E2 D0 B0 Z0|ms ds m d t tz E E2 M D0 B1 B2 Dm Z0|ys y t tz E E2 Y Z0|ys y ms m t tz E E2 Y M B0 Z0|v E X];
      try (destruct I as [I|I], K as [K|K]; assert (Q := one_space _ _ _ I K); discriminate Q); try (destruct I as [I|I]; assert (Q := one_space _ _ _ I J); discriminate Q); try (destruct H as [-> | ->]; discriminate E).
    - destruct tz as [z|]; [|destruct F as (_ & _ & N & _); contradiction]. do 8 eexists. split; [reflexivity|]. apply (G _ _ _ _ _ _ _ _ X F).
    - do 8 eexists. split; [reflexivity|]. apply (G _ _ _ _ _ _ _ _ X F). }
  intros s s' a b A B. apply X in A as (y & mo & d & h & m & sec & nano & z & -> & P). apply X in B as (y' & mo' & d' & h' & m' & sec' & nano' & z' & -> & P').
  cbn [atom_order]. rewrite P, P'. discriminate.
Qed.
End Library.
