(** Proofs about the text serialisers. *)
From Coq Require Import List NArith ZArith Bool Ascii String Lia.
From Coq Require Import ZifyBool ZifyNat ZifyN.
From Verif Require Import Str StrFacts GProofs Serde SpecSerde.
Import ListNotations.
Local Open Scope N_scope.

(** ** Trimming *)
Lemma xml_space_iff c : xml_space c = true <-> xml_blank c.
Proof. unfold xml_space, xml_blank. cbn [In]. lia. Qed.

Lemma xml_trim_start_id s : (forall c t, s = c :: t -> ~ xml_blank c) -> xml_trim_start s = s.
Proof.
  destruct s as [|c s]; intros H; cbn [xml_trim_start]; auto.
  destruct (xml_space c) eqn:E; auto. apply xml_space_iff in E. exfalso. eapply H; eauto.
Qed.

Lemma xml_trim_id s : untrimmed s -> xml_trim s = s.
Proof.
  intros [H1 H2]. unfold xml_trim. rewrite (xml_trim_start_id s) by auto.
  rewrite xml_trim_start_id; [apply rev_involutive|].
  intros c t E. apply (f_equal (@rev N)) in E. rewrite rev_involutive in E. cbn [rev] in E. eauto.
Qed.

Lemma xml_trim_start_blanks w s : (forall c, In c w -> xml_blank c) -> xml_trim_start (w ++ s) = xml_trim_start s.
Proof. induction w as [|c w IH]; intros H; auto. cbn [app xml_trim_start]. rewrite (proj2 (xml_space_iff c)) by (apply H; left; auto). apply IH. intros. apply H. right. auto. Qed.
Lemma xml_trim_around w s w' : (forall c, In c (w ++ w') -> xml_blank c) -> untrimmed s -> xml_trim (w ++ s ++ w') = s.
Proof.
  intros B U. unfold xml_trim. rewrite xml_trim_start_blanks by (intros; apply B, in_or_app; auto). destruct s as [|c s].
  - cbn [app]. rewrite <- (app_nil_r w'), xml_trim_start_blanks by (intros; apply B, in_or_app; auto). reflexivity.
  - rewrite (xml_trim_start_id ((c :: s) ++ w')) by (intros c' t' [= <- _]; apply (proj1 U _ _ eq_refl)).
    rewrite rev_app_distr, xml_trim_start_blanks by (intros x I; apply B, in_or_app; right; apply in_rev; auto).
    replace (xml_trim_start (rev (c :: s))) with (rev (c :: s)); [apply rev_involutive|]. symmetry. apply xml_trim_start_id. intros x t E. apply (proj2 U x (rev t)). rewrite <- (rev_involutive (c :: s)), E. reflexivity.
Qed.

Lemma serialize_channel {S} (f : S -> str) n sn v :
  channel (serialize f n sn false v) =
  RStart (match sn with Some x => x | None => n end) ::
  match xml_trim (f v) with [] => [] | t => [RChars t] end ++ [REnd].
Proof. unfold serialize, channel. cbn. destruct (xml_trim (f v)); reflexivity. Qed.

Lemma serde_round {S T} (f : S -> str) (g : str -> res T) n sn v more :
  fst (deserialize g (channel (serialize f n sn false v) ++ more)) = g (xml_trim (f v)).
Proof. rewrite serialize_channel. destruct (xml_trim (f v)) eqn:E; reflexivity. Qed.

Lemma deserialize_start {S} (g : str -> res S) es :
  (forall n t r, es = RStart n :: RChars t :: r -> deserialize g es = (g t, RChars t :: r)) /\
  (forall n r, es = RStart n :: r -> (forall t r', r <> RChars t :: r') -> deserialize g es = (g [], r)) /\
  ((forall n r, es <> RStart n :: r) -> deserialize g es = (Err, es)).
Proof.
  split; [|split].
  - intros n t r ->. reflexivity.
  - intros n r -> H. cbn. destruct r as [|[]]; auto. exfalso. eapply H; eauto.
  - intros H. destruct es as [|[n|t| | |] r]; auto. exfalso. eapply H; eauto.
Qed.

Lemma serialize_events {S} (f : S -> str) n sn v :
  serialize f n sn true v = [WChars (f v)] /\
  serialize f n sn false v =
    [WStart (match sn with Some x => x | None => n end); WChars (f v); WEnd].
Proof. split; reflexivity. Qed.

(** ** Tokens *)
Lemma split_ws_blank w : blanks w -> forall s, split_whitespace_aux (w ++ s) [] = split_whitespace_aux s [].
Proof.
  intros B. induction w as [|c w IH]; intros s; auto. cbn [app split_whitespace_aux].
  rewrite (B c (or_introl eq_refl)). apply IH. intros x H. apply B. right. auto.
Qed.

Lemma split_ws_solid t : (forall c, In c t -> is_whitespace c = false) ->
  forall cur s, split_whitespace_aux (t ++ s) cur = split_whitespace_aux s (rev t ++ cur).
Proof.
  intros H. induction t as [|c t IH]; intros cur s; auto. cbn [app split_whitespace_aux].
  rewrite (H c (or_introl eq_refl)). rewrite IH.
  - cbn [rev]. rewrite <- app_assoc. reflexivity.
  - intros x Hx. apply H. right. auto.
Qed.

Lemma rev_nil_inv (t : str) : t <> [] -> exists x u, rev t = x :: u.
Proof.
  intros H. destruct (rev t) eqn:E; eauto. exfalso. apply H. rewrite <- (rev_involutive t), E. reflexivity.
Qed.

Lemma tokens_split s ts : tokens s ts -> split_whitespace s = ts.
Proof.
  unfold split_whitespace. intros H. induction H as [w B|w t w' B [N0 T] B'|w t b rest ts B [N0 T] Hb N1 Ht IH].
  - rewrite <- (app_nil_r w), split_ws_blank; auto.
  - rewrite split_ws_blank, split_ws_solid by auto. rewrite app_nil_r.
    destruct (rev_nil_inv t N0) as (x & u & E).
    destruct w' as [|c w'].
    + cbn [split_whitespace_aux]. rewrite E. rewrite <- E, rev_involutive. auto.
    + cbn [split_whitespace_aux]. rewrite (B' c (or_introl eq_refl)), E, <- E, rev_involutive.
      f_equal. rewrite <- (app_nil_r w'), split_ws_blank; auto. intros y Hy. apply B'. right. auto.
  - rewrite split_ws_blank, split_ws_solid by auto. rewrite app_nil_r.
    destruct (rev_nil_inv t N0) as (x & u & E).
    cbn [app split_whitespace_aux]. rewrite Hb, E, <- E, rev_involutive. f_equal. exact IH.
Qed.

Lemma tokens_total : forall s, tokens s (split_whitespace s).
Proof.
  assert (K : forall s, tokens s (split_whitespace_aux s []) /\
    forall cur, cur <> [] -> (forall c, In c cur -> is_whitespace c = false) ->
      tokens (rev cur ++ s) (split_whitespace_aux s cur)).
  { intros s. induction s as [|c s [IH1 IH2]].
    - split; [apply tok_none; intros ? []|]. intros cur N0 T. cbn [split_whitespace_aux].
      destruct cur as [|x cur]; [congruence|]. change (rev (x :: cur) ++ []) with ([] ++ rev (x :: cur) ++ []).
      apply tok_last; [intros ? []| |intros ? []].
      split; [intros E; apply (f_equal (@List.length N)) in E; rewrite rev_length in E; discriminate|].
      intros y Hy. apply T. apply in_rev. auto.
    - cbn [split_whitespace_aux]. destruct (is_whitespace c) eqn:Ec.
      + split.
        * clear IH2. revert IH1. generalize (split_whitespace_aux s []). intros ts0 IH1.
          destruct IH1 as [w B|w t w' B T B'|w t b rest ts B T Hb N1 Ht].
          -- apply tok_none. intros y [<-|Hy]; auto.
          -- change (c :: w ++ t ++ w') with ((c :: w) ++ t ++ w').
             apply tok_last; auto. intros y [<-|Hy]; auto.
          -- change (c :: w ++ t ++ [b] ++ rest) with ((c :: w) ++ t ++ [b] ++ rest).
             apply tok_more; auto. intros y [<-|Hy]; auto.
        * intros cur N0 T. destruct cur as [|x cur]; [congruence|].
          assert (Sd : solid (rev (x :: cur))).
          { split; [intros E; apply (f_equal (@List.length N)) in E; rewrite rev_length in E; discriminate|].
            intros y Hy. apply T. apply in_rev. auto. }
          destruct (split_whitespace_aux s []) as [|t ts] eqn:E.
          -- inversion IH1 as [w B E1 E2| |]. subst w.
             change (rev (x :: cur) ++ c :: s) with ([] ++ rev (x :: cur) ++ (c :: s)).
             apply tok_last; auto; [intros ? []|]. intros y [<-|Hy]; auto.
          -- change (rev (x :: cur) ++ c :: s) with ([] ++ rev (x :: cur) ++ [c] ++ s).
             apply tok_more; auto; [intros ? []|discriminate].
      + split.
        * apply (IH2 [c]); [discriminate|]. intros y [<-|[]]; auto.
        * intros cur N0 T. specialize (IH2 (c :: cur)). cbn [rev] in IH2. rewrite <- app_assoc in IH2.
          apply IH2; [discriminate|]. intros y [<-|Hy]; auto. }
  intros s. apply K.
Qed.

Lemma filter_map_parses {A} (f : str -> res A) ts l :
  filter_map_ok f ts = Ok l <-> parses f ts l.
Proof.
  split.
  - revert l. induction ts as [|t ts IH]; intros l; cbn [filter_map_ok].
    + intros [= <-]. constructor.
    + destruct (f t) eqn:E; try discriminate.
      * rewrite bind_ok. intros (l' & H & [= <-]). apply parses_ok; auto.
      * intros H. apply parses_err; auto.
  - intros H. induction H as [|t ts a l E H IH|t ts l E H IH]; cbn [filter_map_ok]; auto.
    + rewrite E, IH. reflexivity.
    + rewrite E. auto.
Qed.

Lemma filter_map_no_err {A} (f : str -> res A) ts : filter_map_ok f ts <> Err.
Proof.
  induction ts as [|t ts IH]; cbn [filter_map_ok]; [discriminate|].
  destruct (f t); auto; [|discriminate]. destruct (filter_map_ok f ts); auto; discriminate.
Qed.

Lemma filter_map_panic {A} (f : str -> res A) ts :
  filter_map_ok f ts = Panic <-> exists t, In t ts /\ f t = Panic.
Proof.
  induction ts as [|t ts IH]; cbn [filter_map_ok].
  - split; [discriminate|]. intros (t & [] & _).
  - destruct (f t) eqn:E.
    + rewrite bind_panic. rewrite IH. split.
      * intros [(x & Hx & Hf)|(x & _ & Hx)]; [|discriminate]. exists x. split; auto. right; auto.
      * intros (x & [->|Hx] & Hf); [congruence|]. left. eauto.
    + rewrite IH. split.
      * intros (x & Hx & Hf). exists x. split; auto. right; auto.
      * intros (x & [->|Hx] & Hf); [congruence|]. eauto.
    + split; auto. intros _. exists t. split; auto. left; auto.
Qed.

Lemma vec_language {A} (f : str -> res A) s ts : tokens s ts ->
  (forall l, tuple_vec_from_str f s = Ok l <-> parses f ts l) /\
  tuple_vec_from_str f s <> Err /\
  (tuple_vec_from_str f s = Panic <-> exists t, In t ts /\ f t = Panic).
Proof.
  intros H. apply tokens_split in H. unfold tuple_vec_from_str. rewrite H.
  split; [intros l; apply filter_map_parses|]. split; [apply filter_map_no_err|apply filter_map_panic].
Qed.

Lemma vec_display_tokens {A} (d : A -> str) l :
  (forall a, In a l -> solid (d a)) -> tokens (tuple_vec_display d l) (map d l).
Proof.
  induction l as [|a l IH]; intros H; cbn [tuple_vec_display map].
  - apply tok_none. intros ? [].
  - destruct l as [|b l].
    + cbn [flat_map map]. apply (tok_last [] (d a) []); [intros ? []| |intros ? []]. apply H. left; auto.
    + cbn [flat_map]. change (d a ++ (lit " " ++ d b) ++ flat_map (fun x => lit " " ++ d x) l) with
        ([] ++ d a ++ [32] ++ tuple_vec_display d (b :: l)).
      apply tok_more; [intros ? []|apply H; left; auto|reflexivity|discriminate|].
      apply IH. intros x Hx. apply H. right. auto.
Qed.

Lemma vec_round_trip {A} (f : str -> res A) (d : A -> str) l :
  (forall a, In a l -> solid (d a) /\ f (d a) = Ok a) ->
  tuple_vec_from_str f (tuple_vec_display d l) = Ok l.
Proof.
  intros H. apply (vec_language f _ (map d l)).
  - apply vec_display_tokens. intros a Ha. apply H; auto.
  - induction l as [|a l IH]; cbn [map]; [constructor|].
    apply parses_ok; [apply H; left; auto|]. apply IH. intros x Hx. apply H. right; auto.
Qed.

(** ** Unions *)
Lemma union_parse_spec {V} (ms : list (member V)) s : forall i,
  (forall j v, union_parse i ms s = Ok (Known j v) <->
     exists k m, j = (i + k)%nat /\ nth_error ms k = Some m /\ m_parse m s = Ok v /\
       forall k' m', (k' < k)%nat -> nth_error ms k' = Some m' -> m_parse m' s = Err) /\
  (forall t, union_parse i ms s = Ok (Unknown t) <->
     t = s /\ forall m, In m ms -> m_parse m s = Err) /\
  union_parse i ms s <> Err.
Proof.
  induction ms as [|m ms IH]; intros i; cbn [union_parse].
  - split; [|split; [|discriminate]].
    + intros j v. split; [discriminate|]. intros (k & m & _ & H & _). destruct k; discriminate.
    + intros t. split; [intros [= <-]; split; auto; intros m []|intros [-> _]; auto].
  - destruct (IH (S i)) as (H1 & H2 & H3). destruct (m_parse m s) as [v0| |] eqn:E.
    + split; [|split; [|discriminate]].
      * intros j v. split.
        -- intros [= <- <-]. exists 0%nat, m. split; [lia|]. split; [auto|]. split; [auto|]. intros; lia.
        -- intros (k & m' & -> & Hk & Hp & Hn). destruct k as [|k].
           ++ cbn in Hk. injection Hk as <-. rewrite E in Hp. injection Hp as ->. rewrite Nat.add_0_r. auto.
           ++ specialize (Hn 0%nat m ltac:(lia) eq_refl). congruence.
      * intros t. split; [discriminate|]. intros [_ H]. specialize (H m (or_introl eq_refl)). congruence.
    + split; [|split; [|exact H3]].
      * intros j v. rewrite H1. split.
        -- intros (k & m' & -> & Hk & Hp & Hn). exists (S k), m'. split; [lia|]. split; [auto|]. split; [auto|].
           intros k' m'' L Hk'. destruct k' as [|k']; [cbn in Hk'; congruence|]. apply (Hn k' m''); [lia|auto].
        -- intros (k & m' & -> & Hk & Hp & Hn). destruct k as [|k]; [cbn in Hk; congruence|].
           exists k, m'. split; [lia|]. split; [auto|]. split; [auto|].
           intros k' m'' L Hk'. apply (Hn (S k') m''); [lia|auto].
      * intros t. rewrite H2. split; intros [-> H]; split; auto.
        -- intros m' [<-|Hm]; auto.
        -- intros m' Hm. apply H. right; auto.
    + split; [|split; [|discriminate]].
      * intros j v. split; [discriminate|]. intros (k & m' & -> & Hk & Hp & Hn).
        destruct k as [|k]; [cbn in Hk; congruence|].
        specialize (Hn 0%nat m ltac:(lia) eq_refl). congruence.
      * intros t. split; [discriminate|]. intros [_ H]. specialize (H m (or_introl eq_refl)). congruence.
Qed.

Lemma union_first {V} (ms : list (member V)) s :
  (forall i v, union_parse 0 ms s = Ok (Known i v) <->
     exists m, nth_error ms i = Some m /\ m_parse m s = Ok v /\
       forall j m', (j < i)%nat -> nth_error ms j = Some m' -> m_parse m' s = Err) /\
  (forall t, union_parse 0 ms s = Ok (Unknown t) <->
     t = s /\ forall m, In m ms -> m_parse m s = Err) /\
  union_parse 0 ms s <> Err.
Proof.
  destruct (union_parse_spec ms s 0) as (H1 & H2 & H3). split; [|split; auto].
  intros i v. rewrite H1. split.
  - intros (k & m & -> & H). exists m. exact H.
  - intros (m & H). exists i, m. auto.
Qed.

Lemma union_round {V} (ms : list (member V)) n sn more :
  (forall i v m, nth_error ms i = Some m ->
     (fst (union_deserialize ms (channel (union_serialize ms n sn false (Known i v)) ++ more)) = Ok (Known i v) <->
      m_parse m (xml_trim (m_display m v)) = Ok v /\
      forall j m', (j < i)%nat -> nth_error ms j = Some m' -> m_parse m' (xml_trim (m_display m v)) = Err)) /\
  (forall s, fst (union_deserialize ms (channel (union_serialize ms n sn false (Unknown s)) ++ more)) =
     union_parse 0 ms []) /\
  (forall s, fst (union_deserialize ms (channel (union_serialize ms n sn false (Unknown s)) ++ more)) =
     Ok (Unknown s) <-> s = [] /\ forall m, In m ms -> m_parse m [] = Err).
Proof.
  unfold union_deserialize, union_serialize.
  split; [|split].
  - intros i v m Hm. rewrite serde_round. cbn [union_text]. rewrite Hm.
    rewrite (proj1 (union_first ms _)). split.
    + intros (m' & Hm' & H). rewrite Hm in Hm'. injection Hm' as <-. exact H.
    + intros H. exists m. auto.
  - intros s. rewrite serde_round. reflexivity.
  - intros s. rewrite serde_round. cbn [union_text]. change (xml_trim []) with (@nil N).
    apply (union_first ms []).
Qed.

(** ** The displays of the lexical types contain no blank. *)
From Verif Require Import Tz GTypes Ints Dur DateTime.

Definition plain (s : str) : bool := forallb (fun c => (33 <=? c) && (c <? 128)) s.

Lemma plain_untrimmed s : plain s = true -> untrimmed s.
Proof.
  unfold plain. intros H. rewrite forallb_forall in H.
  assert (K : forall c, In c s -> ~ xml_blank c).
  { intros c Hc. apply H in Hc. unfold xml_blank. cbn [In]. lia. }
  split; intros c t ->; apply K; [left; auto|]. apply in_or_app. right. left. auto.
Qed.

Lemma plain_app a b : plain (a ++ b) = plain a && plain b.
Proof. apply forallb_app. Qed.
Lemma plain_cons c b : plain (c :: b) = ((33 <=? c) && (c <? 128)) && plain b.
Proof. reflexivity. Qed.
Lemma plain_nil : plain [] = true. Proof. reflexivity. Qed.

Lemma digits_plain s : forallb is_ascii_digit s = true -> plain s = true.
Proof.
  unfold plain. rewrite !forallb_forall. intros H c Hc. apply H in Hc. unfold is_ascii_digit in Hc. lia.
Qed.
Lemma dec_plain n : plain (dec n) = true. Proof. apply digits_plain, dec_digits. Qed.
Lemma pad_plain w n : plain (pad w n) = true. Proof. apply digits_plain, pad_digits. Qed.
Lemma zeros_plain n : plain (zeros n) = true. Proof. apply digits_plain, zeros_digits. Qed.
Lemma pad_signed_plain w z : plain (pad_signed w z) = true.
Proof.
  unfold pad_signed. destruct (Z.ltb _ _); [|apply pad_plain].
  rewrite plain_cons, plain_app, zeros_plain, dec_plain. reflexivity.
Qed.

Ltac pl := repeat (rewrite ?plain_app, ?plain_cons, ?plain_nil, ?dec_plain, ?pad_plain, ?zeros_plain, ?pad_signed_plain;
  try match goal with |- context[if ?b then _ else _] => destruct b end); try reflexivity.

Lemma offset_plain z : plain (display_offset z) = true.
Proof. unfold display_offset. cbv zeta. pl. Qed.
Lemma tz_plain tz : plain (tz_text tz) = true.
Proof. destruct tz; [apply offset_plain|reflexivity]. Qed.

Lemma strip_zeros_plain s : plain s = true -> plain (strip_zeros s) = true.
Proof.
  unfold plain, strip_zeros. rewrite !forallb_forall. intros H c Hc. apply H. apply in_rev in Hc.
  apply in_rev. revert Hc. generalize (rev s). intros l. induction l as [|x l IH]; auto.
  destruct (N.eqb x 48); auto. intros Hc. right. auto.
Qed.

Lemma print_dec_plain d q : plain (print_dec d q) = true.
Proof.
  unfold print_dec. destruct (Z.leb 0 q); [pl|].
  pose proof (strip_zeros_plain _ (pad_plain (Z.to_nat (- q)) (Z.to_N (d mod 10 ^ (- q))))) as H. cbv zeta.
  destruct (strip_zeros _) as [|c l]; [pl|]. rewrite plain_app, dec_plain, plain_cons, H. reflexivity.
Qed.

Lemma f64_plain x : plain (f64_display x) = true.
Proof.
  destruct x as [s|s| |s m e]; cbn [f64_display]; try (destruct s; reflexivity); [reflexivity|].
  destruct (shortest _ _ _ _ _) as [d q]. rewrite plain_app, print_dec_plain. destruct s; reflexivity.
Qed.

Lemma comp_plain v c : (33 <= c < 128) -> plain (comp_text v c) = true.
Proof.
  intros H. unfold comp_text. destruct (0 <? v); [|reflexivity]. rewrite plain_app, dec_plain, plain_cons.
  cbn [plain forallb]. lia.
Qed.

Lemma dur_plain d : plain (dur_display d) = true.
Proof.
  unfold dur_display. cbv zeta.
  assert (A : forall p a b c s, plain p = true -> plain a = true -> plain b = true -> plain c = true -> plain s = true ->
    plain (match a ++ b ++ c with
           | [] => match s with [] => p ++ lit "0Y" | _ :: _ => p ++ s end
           | _ :: _ => p ++ s ++ lit "T" ++ a ++ b ++ c end) = true).
  { intros p a b c s Hp Ha Hb Hc Hs. destruct (a ++ b ++ c) eqn:E.
    - destruct s; rewrite plain_app, Hp; auto.
    - rewrite <- E. rewrite !plain_app, Hp, Ha, Hb, Hc, Hs. reflexivity. }
  apply A.
  - destruct (d_neg d); reflexivity.
  - apply comp_plain; vm_compute; split; congruence.
  - apply comp_plain; vm_compute; split; congruence.
  - destruct (f64_gtb _ _); [rewrite plain_app, f64_plain|]; reflexivity.
  - rewrite !plain_app, !comp_plain; auto; vm_compute; split; congruence.
Qed.

Lemma date_plain v : plain (format_date v) = true.
Proof. unfold format_date, format_year. pl. Qed.
Lemma time_plain v : plain (format_time v) = true.
Proof. unfold format_time. pl. Qed.

Lemma datetime_plain v : plain (datetime_display v) = true.
Proof.
  unfold datetime_display. rewrite !plain_app, date_plain, time_plain.
  unfold format_nano, format_offset. cbv zeta. pl.
Qed.

Lemma bigint_plain z : plain (bigint_display z) = true.
Proof. unfold bigint_display. pl. Qed.

Lemma plain_round {S T} (f : S -> str) (g : str -> res T) n sn v more :
  plain (f v) = true ->
  fst (default_deserialize g (channel (default_serialize f n sn false v) ++ more)) = g (f v).
Proof.
  intros H. unfold default_deserialize, default_serialize. rewrite serde_round, xml_trim_id; auto.
  apply plain_untrimmed; auto.
Qed.

Lemma res_plain_gyear chk g s : gyear_display chk g = Ok s -> plain s = true.
Proof.
  unfold gyear_display. destruct (Z.ltb _ _).
  - intros [= <-]. rewrite plain_app, pad_signed_plain, tz_plain. reflexivity.
  - rewrite bind_ok. intros (n & _ & [= <-]). rewrite plain_cons, plain_app, pad_signed_plain, tz_plain. reflexivity.
Qed.
Lemma res_plain_gyearmonth chk g s : gyearmonth_display chk g = Ok s -> plain s = true.
Proof.
  unfold gyearmonth_display. destruct (Z.ltb _ _).
  - intros H. apply (f_equal (fun r => match r with Ok x => x | _ => [] end)) in H. subst s.
    rewrite !plain_app, !pad_signed_plain, tz_plain. reflexivity.
  - rewrite bind_ok. intros (n & _ & H).
    apply (f_equal (fun r => match r with Ok x => x | _ => [] end)) in H. subst s.
    rewrite !plain_app, !pad_signed_plain, tz_plain. reflexivity.
Qed.

Lemma lexical_displays_plain :
  (forall z, plain (bigint_display z) = true) /\ (forall n, plain (biguint_display n) = true) /\
  (forall g, plain (gday_display g) = true) /\ (forall g, plain (gmonth_display g) = true) /\
  (forall g, plain (gmonthday_display g) = true) /\ (forall d, plain (dur_display d) = true) /\
  (forall d, plain (date_display d) = true) /\ (forall t, plain (time_display t) = true) /\
  (forall v, plain (datetime_display v) = true).
Proof.
  split; [exact bigint_plain|]. split; [exact dec_plain|].
  split; [intros g; unfold gday_display; rewrite !plain_app, pad_signed_plain, tz_plain; reflexivity|].
  split; [intros g; unfold gmonth_display; rewrite !plain_app, pad_signed_plain, tz_plain; reflexivity|].
  split; [intros g; unfold gmonthday_display; rewrite !plain_app, !pad_signed_plain, tz_plain; reflexivity|].
  split; [exact dur_plain|].
  split; [intros v; unfold date_display; rewrite plain_app, date_plain, tz_plain; reflexivity|].
  split; [intros v; unfold time_display; rewrite plain_app, time_plain, tz_plain; reflexivity|].
  exact datetime_plain.
Qed.

Lemma element_round_trip : forall name sn more,
  let rt {A B} (d : A -> str) (f : str -> res B) :=
    forall v, fst (default_deserialize f (channel (default_serialize d name sn false v) ++ more)) = f (d v) in
  rt integer_display integer_from_str /\
  rt non_negative_integer_display non_negative_integer_from_str /\
  rt positive_integer_display positive_integer_from_str /\
  rt non_positive_integer_display non_positive_integer_from_str /\
  rt negative_integer_display negative_integer_from_str /\
  rt gday_display gday_from_str /\ rt gmonth_display gmonth_from_str /\
  rt gmonthday_display gmonthday_from_str /\
  (forall chk, rt dur_display (dur_from_str chk)) /\
  (forall lo hi, rt date_display (date_from_str lo hi)) /\
  rt time_display time_from_str /\
  (forall lo hi, rt datetime_display (datetime_from_str lo hi)).
Proof.
  intros name sn more rt. destruct lexical_displays_plain as (P1 & P2 & P3 & P4 & P5 & P6 & P7 & P8 & P9).
  unfold rt. do 8 (split; [intros v; apply plain_round; auto|]).
  split; [intros chk v; apply plain_round; auto|]. split; [intros lo hi v; apply plain_round; auto|].
  split; [intros v; apply plain_round; auto|]. intros lo hi v; apply plain_round; auto.
Qed.

Lemma integer_solid z : solid (integer_display z).
Proof.
  split.
  - unfold integer_display, bigint_display. destruct (Z.ltb z 0); [discriminate|]. apply dec_nonempty.
  - intros c Hc. assert (H : plain (integer_display z) = true) by apply bigint_plain.
    unfold plain in H. rewrite forallb_forall in H. apply H in Hc. unfold is_whitespace. lia.
Qed.
