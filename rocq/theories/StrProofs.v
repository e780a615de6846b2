(** The model of Rust's strings does what Rust documents: proofs. *)
From Coq Require Import Arith NArith ZArith Bool Ascii String List Lia.
From Verif Require Import Str StrFacts SpecLex TzProofs SpecStr.
From Verif Require SpecSerde SerdeProofs.
Import ListNotations.
Local Open Scope list_scope.
Local Open Scope N_scope.
Notation concat := List.concat.
Arguments lit : simpl never.

(** ** Characters *)
Lemma in_range a k c : In c (map (fun i => a + N.of_nat i) (seq 0 k)) <-> a <= c < a + N.of_nat k.
Proof.
  rewrite in_map_iff. split.
  - intros (i & <- & I). apply in_seq in I. lia.
  - intros H. exists (N.to_nat (c - a)). split; [lia|]. apply in_seq. lia.
Qed.
Lemma in_digits c : In c digits <-> 48 <= c <= 57.
Proof. change digits with (map (fun i => 48 + N.of_nat i) (seq 0 10)). rewrite in_range. cbn [N.of_nat]. lia. Qed.
Lemma in_small c : In c small <-> 97 <= c <= 122.
Proof. change small with (map (fun i => 97 + N.of_nat i) (seq 0 26)). rewrite in_range. cbn. lia. Qed.
Lemma in_capital c : In c capital <-> 65 <= c <= 90.
Proof. change capital with (map (fun i => 65 + N.of_nat i) (seq 0 26)). rewrite in_range. cbn. lia. Qed.
Lemma digit_iff c : is_ascii_digit c = true <-> In c digits.
Proof. rewrite in_digits. unfold is_ascii_digit. lia. Qed.
Lemma lower_iff c : is_ascii_lower c = true <-> In c small.
Proof. rewrite in_small. unfold is_ascii_lower. lia. Qed.
Lemma upper_iff c : is_ascii_upper c = true <-> In c capital.
Proof. rewrite in_capital. unfold is_ascii_upper. lia. Qed.
Lemma alpha_iff c : is_ascii_alpha c = true <-> In c small \/ In c capital.
Proof. unfold is_ascii_alpha. rewrite orb_true_iff, lower_iff, upper_iff. tauto. Qed.
Lemma in_white c : In c white <-> 9 <= c <= 13 \/ c = 32 \/ c = 133 \/ c = 160 \/ c = 5760 \/ 8192 <= c <= 8202 \/ c = 8232 \/ c = 8233 \/ c = 8239 \/ c = 8287 \/ c = 12288.
Proof.
  change white with (map (fun i => 9 + N.of_nat i) (seq 0 5) ++ [32; 133; 160; 5760] ++ map (fun i => 8192 + N.of_nat i) (seq 0 11) ++ [8232; 8233; 8239; 8287; 12288]).
  rewrite !in_app_iff, !in_range. cbn [In N.of_nat Pos.of_succ_nat Pos.succ]. intuition lia.
Qed.
Lemma white_iff c : is_whitespace c = true <-> In c white.
Proof. rewrite in_white. unfold is_whitespace. rewrite !orb_true_iff, !andb_true_iff, !N.leb_le, !N.eqb_eq. tauto. Qed.
Lemma white_false c : is_whitespace c = false <-> ~ In c white.
Proof. rewrite <- white_iff. destruct (is_whitespace c); split; congruence. Qed.
Lemma numeric_iff u c : is_numeric u c = true <-> In c digits \/ 128 <= c /\ u_numeric u c = true.
Proof. unfold is_numeric, is_ascii. rewrite <- digit_iff. destruct (c <? 128) eqn:E; [|assert (~ is_ascii_digit c = true) by (unfold is_ascii_digit; lia)]; intuition lia. Qed.
Lemma lowercase_iff u c : is_lowercase u c = true <-> In c small \/ 128 <= c /\ u_lower u c = true.
Proof. unfold is_lowercase, is_ascii. rewrite <- lower_iff. destruct (c <? 128) eqn:E; [|assert (~ is_ascii_lower c = true) by (unfold is_ascii_lower; lia)]; intuition lia. Qed.
Lemma uppercase_iff u c : is_uppercase u c = true <-> In c capital \/ 128 <= c /\ u_upper u c = true.
Proof. unfold is_uppercase, is_ascii. rewrite <- upper_iff. destruct (c <? 128) eqn:E; [|assert (~ is_ascii_upper c = true) by (unfold is_ascii_upper; lia)]; intuition lia. Qed.
Lemma alphanumeric_iff u c : is_alphanumeric u c = true <-> In c digits \/ In c small \/ In c capital \/ 128 <= c /\ (u_alphabetic u c = true \/ u_numeric u c = true).
Proof.
  unfold is_alphanumeric, is_ascii. rewrite in_digits, in_small, in_capital. destruct (c <? 128) eqn:E; rewrite orb_true_iff; [rewrite digit_iff, alpha_iff, in_digits, in_small, in_capital|]; intuition lia.
Qed.
Lemma lower_to c : (In c capital -> to_ascii_lowercase c = c + 32) /\ (~ In c capital -> to_ascii_lowercase c = c).
Proof. unfold to_ascii_lowercase. rewrite <- upper_iff. destruct (is_ascii_upper c); intuition congruence. Qed.
Lemma upper_to c : (In c small -> to_ascii_uppercase c + 32 = c) /\ (~ In c small -> to_ascii_uppercase c = c).
Proof. unfold to_ascii_uppercase. rewrite <- lower_iff. destruct (is_ascii_lower c) eqn:E; intuition; unfold is_ascii_lower in *; lia. Qed.

(** ** Bytes *)
Lemma utf8_char_length c : List.length (utf8_char c) = utf8_len c.
Proof. unfold utf8_char, utf8_len. destruct (c <? 128), (c <? 2048), (c <? 65536); auto. Qed.
Lemma bytes_length s : byte_len s = List.length (utf8 s).
Proof. induction s as [|c s IH]; auto. unfold utf8 in *. cbn [map List.concat byte_len]. rewrite app_length, utf8_char_length, IH. auto. Qed.
Lemma slice_part s i j m : slice s i j = Ok m <-> part_of s i j m.
Proof.
  rewrite slice_spec. unfold part_of. split; intros (a & b & E & H1 & H2); exists a, b; (split; [auto|]); rewrite <- ?bytes_length, ?byte_len_app in *; auto.
Qed.
Lemma slice_panics s i j : slice s i j = Panic <-> ~ exists m, part_of s i j m.
Proof.
  split.
  - intros H (m & X). apply slice_part in X. congruence.
  - intros H. destruct (slice s i j) as [m| |] eqn:E; auto; [destruct H; exists m; apply slice_part; auto|].
    unfold slice in E. destruct (split_at s j) as [[p q]|]; [destruct (split_at p i) as [[? ?]|]|]; discriminate.
Qed.
Lemma slice_from_part s i m : slice_from s i = Ok m <-> exists a, s = a ++ m /\ List.length (utf8 a) = i.
Proof.
  unfold slice_from. destruct (split_at s i) as [[p q]|] eqn:E.
  - apply split_at_spec in E as [-> E]. rewrite bytes_length in E. split; [intros [= <-]; eauto|]. intros (a & X & Y). rewrite <- bytes_length in *. destruct (app_byte_inj _ _ _ _ X) as [_ ->]; [lia|auto].
  - split; [discriminate|]. intros (a & -> & Y). rewrite <- bytes_length in Y. assert (X : split_at (a ++ m) i = Some (a, m)) by (apply split_at_spec; auto). congruence.
Qed.
Lemma slice_from_panics s i : slice_from s i = Panic <-> ~ exists m a, s = a ++ m /\ List.length (utf8 a) = i.
Proof.
  split.
  - intros H (m & X). apply slice_from_part in X. congruence.
  - intros H. destruct (slice_from s i) as [m| |] eqn:E; auto; [destruct H; exists m; apply slice_from_part; auto|]. unfold slice_from in E. destruct (split_at s i) as [[? ?]|]; discriminate.
Qed.

(** ** Searching *)
Lemma contains_iff c s : contains c s = true <-> In c s.
Proof. rewrite <- not_false_iff_true, contains_false. split; [intros H; destruct (in_dec N.eq_dec c s); tauto|tauto]. Qed.
Lemma count_occ_eq c s : count c s = count_occ N.eq_dec s c.
Proof. induction s as [|x s IH]; auto. cbn [count count_occ]. rewrite IH. destruct (N.eq_dec x c) as [->|N]; [rewrite N.eqb_refl; auto|]. assert (X : c <> x) by congruence. apply N.eqb_neq in X. rewrite X. auto. Qed.
Lemma split_before_iff c k s a b : split_before c k s = Some (a, b) <-> s = a ++ b /\ count_occ N.eq_dec a c = k /\ exists t, b = c :: t.
Proof. rewrite split_before_spec, count_occ_eq. tauto. Qed.
Lemma starts_iff p s : starts_with p s = true <-> exists t, s = p ++ t.
Proof.
  revert s. induction p as [|a p IH]; intros s; cbn [starts_with]; [split; [intros _; exists s; auto|auto]|]. destruct s as [|b s].
  { split; [discriminate|]. intros (t & X). cbn in X. discriminate. }
  rewrite andb_true_iff, N.eqb_eq, IH. split; [intros (-> & t & ->); exists t; auto|]. intros (t & X). cbn in X. injection X as -> ->. eauto.
Qed.
Lemma ends_iff p s : ends_with p s = true <-> exists t, s = t ++ p.
Proof.
  unfold ends_with. rewrite starts_iff. split; intros (t & E); exists (rev t).
  - rewrite <- (rev_involutive s), E, rev_app_distr, rev_involutive. auto.
  - rewrite E, rev_app_distr. auto.
Qed.

(** ** Splitting *)
Lemma split_on_iff c s l : split_on c s = l <-> split_by c s l.
Proof.
  assert (X : forall s l, split_by c s l -> split_on c s = l).
  { intros s0 l0 H. induction H as [s0 N|s0 r ps N H IH]; [apply split_on_none; auto|]. cbn [app]. rewrite split_on_app by auto. congruence. }
  split; [|apply X]. intros <-. assert (Y : forall s, exists l, split_by c s l).
  { clear s X. induction s as [|x s (l & IH)]; [exists [[]]; constructor; auto|]. destruct (N.eq_dec x c) as [->|Ne].
    - exists ([] :: l). apply (split_more c [] s l); auto.
    - inversion IH as [? Ni|t r ps Ni H]; subst; [exists [x :: s]; constructor; intros [E|E]; auto|]. exists ((x :: t) :: ps). apply (split_more c (x :: t) r ps); auto. intros [E|E]; auto. }
  destruct (Y s) as (l & H). rewrite (X s l H). auto.
Qed.
Lemma last_segment_iff c s l : last_segment c s = l <-> after_last c s l.
Proof.
  assert (X : forall s ps, split_by c s ps -> after_last c s (last ps [])).
  { intros s0 ps H. induction H as [s0 N|s0 r ps N H (IH1 & IH2)]; [split; auto|]. destruct ps as [|p0 ps]; [inversion H|]. assert (G : after_last c (s0 ++ [c] ++ r) (last (p0 :: ps) [])); [|exact G]. split; auto. right.
    destruct IH2 as [->|(p & IH2)]; [exists s0; auto|]. exists (s0 ++ [c] ++ p). rewrite <- !app_assoc. rewrite IH2 at 1. auto. }
  assert (Y : forall a b, after_last c s a -> after_last c s b -> a = b).
  { assert (Z : forall (s : str) a b p, ~ In c a -> s = a -> s = p ++ [c] ++ b -> False).
    { intros s0 a b p Na E1 E2. apply Na. rewrite <- E1, E2. apply in_or_app. right. left. auto. }
    intros a b (Na & [Ea|(p & Ea)]) (Nb & [Eb|(q & Eb)]); [congruence|exfalso; eapply (Z s a b q); eauto|exfalso; eapply (Z s b a p); eauto|].
    rewrite Ea in Eb. clear Ea s X Z. revert q Eb. induction p as [|x p IH]; intros [|y q] Eb; cbn in Eb.
    - congruence.
    - injection Eb as <- Eb. exfalso. apply Na. rewrite Eb. apply in_or_app. right. left. auto.
    - injection Eb as -> Eb. exfalso. apply Nb. rewrite <- Eb. apply in_or_app. right. left. auto.
    - injection Eb as _ Eb. eauto. }
  assert (Z : after_last c s (last_segment c s)) by (apply X, split_on_iff; auto). split; [intros <-; auto|intros H; apply Y; auto].
Qed.

(** ** White space *)
Lemma blank_iff w : blank w <-> SpecSerde.blanks w.
Proof. unfold blank, SpecSerde.blanks. split; intros H c I; apply white_iff; auto. Qed.
Lemma solid_iff w : solid w <-> SpecSerde.solid w.
Proof. unfold solid, SpecSerde.solid. split; intros [H1 H]; (split; [auto|]); intros c I; apply white_false; auto. Qed.
Lemma words_iff s l : split_whitespace s = l <-> words s l.
Proof.
  assert (X : forall s l, words s l -> SpecSerde.tokens s l).
  { intros s0 l0 H. induction H as [w B|w t B S|w t b s0 ts B S Ib H IH].
    - apply SpecSerde.tok_none. apply blank_iff; auto.
    - rewrite <- (app_nil_r t) at 1. apply SpecSerde.tok_last; [apply blank_iff; auto|apply solid_iff; auto|intros c []].
    - destruct ts as [|t' ts].
      + assert (Bs : SpecSerde.blanks s0) by (inversion IH; auto). apply SpecSerde.tok_last; [apply blank_iff; auto|apply solid_iff; auto|]. intros c [<-|I]; [apply white_iff; auto|apply Bs; auto].
      + apply SpecSerde.tok_more; [apply blank_iff; auto|apply solid_iff; auto|apply white_iff; auto|discriminate|auto]. }
  assert (Y : forall s l, SpecSerde.tokens s l -> words s l).
  { intros s0 l0 H. induction H as [w B|w t w' B S B'|w t b r ts B S Eb N H IH].
    - apply words_none. apply blank_iff; auto.
    - destruct w' as [|b w']; [rewrite app_nil_r; apply words_one; [apply blank_iff|apply solid_iff]; auto|].
      apply (words_more w t b w' []); [apply blank_iff; auto|apply solid_iff; auto|apply white_iff; apply B'; left; auto|]. apply words_none. apply blank_iff. intros c I. apply B'. right. auto.
    - apply words_more; [apply blank_iff; auto|apply solid_iff; auto|apply white_iff; auto|auto]. }
  split; [intros <-; apply Y, SerdeProofs.tokens_total|intros H; apply SerdeProofs.tokens_split, X; auto].
Qed.
Lemma trim_start_iff s t : trim_start s = t <-> exists a, s = a ++ t /\ blank a /\ no_white_first t.
Proof.
  assert (X : forall s, exists a, s = a ++ trim_start s /\ blank a /\ no_white_first (trim_start s)).
  { clear. induction s as [|c s (a & E & B & N)]; [exists []; repeat split; [intros ? []|discriminate]|]. cbn [trim_start]. destruct (is_whitespace c) eqn:Ec.
    - exists (c :: a). split; [cbn; congruence|]. split; auto. intros x [<-|I]; [apply white_iff; auto|auto].
    - exists []. split; auto. split; [intros ? []|]. intros x r [= <- _]. apply white_false. auto. }
  split; [intros <-; auto|]. intros (a & -> & B & N). clear X. induction a as [|c a IH]; cbn [app].
  - destruct t as [|c t]; auto. cbn [trim_start]. assert (Y := N c t eq_refl). apply white_false in Y. rewrite Y. auto.
  - cbn [trim_start]. assert (Y : is_whitespace c = true) by (apply white_iff, B; left; auto). rewrite Y. apply IH. intros x I. apply B. right. auto.
Qed.
Lemma blank_rev a : blank a -> blank (rev a).
Proof. intros B c I. apply B. apply in_rev. auto. Qed.
Lemma trim_end_iff s t : trim_end s = t <-> exists b, s = t ++ b /\ blank b /\ no_white_last t.
Proof.
  unfold trim_end. assert (E : rev (trim_start (rev s)) = t <-> trim_start (rev s) = rev t) by (split; intros H; [rewrite <- H, rev_involutive|rewrite H, rev_involutive]; auto).
  rewrite E, trim_start_iff. clear E. split; intros (a & E & B & N); exists (rev a); (split; [|split; [apply blank_rev; auto|]]).
  - rewrite <- (rev_involutive s), E, rev_app_distr, rev_involutive. auto.
  - intros c r ->. rewrite rev_app_distr in N. apply (N c (rev r)). auto.
  - rewrite E, rev_app_distr. auto.
  - intros c r Er. apply (N c (rev r)). rewrite <- (rev_involutive t), Er. auto.
Qed.
Lemma trim_iff s t : trim s = t <-> exists a b, s = a ++ t ++ b /\ blank a /\ blank b /\ no_white_first t /\ no_white_last t.
Proof.
  unfold trim. rewrite trim_end_iff. split.
  - intros (b & E & B & N). destruct (proj1 (trim_start_iff s _) eq_refl) as (a & Ea & Ba & Na). rewrite E in Ea, Na. exists a, b. split; auto. split; auto. split; auto. split; auto.
    intros c r ->. apply (Na c (r ++ b)). auto.
  - intros (a & b & E & Ba & Bb & N1 & N2). destruct t as [|c t].
    + exists []. assert (X : trim_start s = []). { apply trim_start_iff. exists s. rewrite app_nil_r. split; auto. split; [|discriminate]. rewrite E. intros x I. cbn [app] in I. apply in_app_or in I as [I|I]; auto. }
      rewrite X. split; auto. split; [intros ? []|auto].
    + exists b. split; auto. apply trim_start_iff. exists a. split; auto. split; auto. intros x r [= <- _]. eapply N1; eauto.
Qed.

(** ** Lines *)
Lemma lines_aux_app p : ~ In 10 p -> forall cur s, lines_aux (p ++ s) cur = lines_aux s (rev p ++ cur).
Proof.
  induction p as [|c p IH]; intros H cur s; auto. cbn [app lines_aux]. assert (X : c <> 10) by (intros ->; apply H; left; auto). apply N.eqb_neq in X. rewrite X, IH by (intros I; apply H; right; auto).
  cbn [rev]. rewrite <- app_assoc. auto.
Qed.
Lemma strip_cr_none s : (forall t, s <> t ++ [13]) -> strip_cr s = s.
Proof. intros H. unfold strip_cr. rewrite (proj2 (strip_suffix_none 13 s) H). auto. Qed.
Lemma strip_cr_some s : strip_cr (s ++ [13]) = s.
Proof. unfold strip_cr. rewrite (proj2 (strip_suffix_spec 13 (s ++ [13]) s) eq_refl). auto. Qed.
Lemma lines_iff s l : lines s = l <-> lines_of s l.
Proof.
  assert (X : forall s l, lines_of s l -> lines s = l).
  { intros s0 l0 H. unfold lines. induction H as [|s0 N H|s0 r ls N Nr H IH|s0 r ls N H IH]; auto.
    - rewrite <- (app_nil_r s0) at 1. rewrite lines_aux_app by auto. cbn [lines_aux]. rewrite app_nil_r, rev_involutive. destruct (rev s0) eqn:E; auto. exfalso. apply N. rewrite <- (rev_involutive s0), E. auto.
    - rewrite lines_aux_app by auto. cbn [app lines_aux]. rewrite N.eqb_refl, app_nil_r, rev_involutive, IH, strip_cr_none; auto.
    - replace (s0 ++ [13; 10] ++ r) with ((s0 ++ [13]) ++ 10 :: r) by (rewrite <- app_assoc; auto). rewrite lines_aux_app by (rewrite in_app_iff; intros [I|[I|[]]]; [auto|discriminate]).
      cbn [app lines_aux]. rewrite N.eqb_refl, app_nil_r, rev_involutive, IH, strip_cr_some. auto. }
  assert (Y : forall s, exists l, lines_of s l).
  { clear. intros s. assert (Z : exists ps, split_by 10 s ps) by (exists (split_on 10 s); apply split_on_iff; auto). destruct Z as (ps & H). induction H as [s N|s r ps N H (l & IH)].
    - destruct s as [|c s]; [exists []; constructor|]. exists [c :: s]. apply lines_rest; auto. discriminate.
    - destruct (strip_suffix 13 s) as [p|] eqn:E.
      + apply strip_suffix_spec in E. subst s. exists (p :: l). rewrite <- app_assoc. cbn [app]. apply (lines_return p r l); auto. intros I. apply N. apply in_or_app. auto.
      + exists (s :: l). apply (lines_feed s r l); auto. apply strip_suffix_none. auto. }
  split; [|apply X]. intros <-. destruct (Y s) as (l & H). rewrite (X s l H). auto.
Qed.
Lemma join_iff sep l s : join sep l = s <-> joined sep l s.
Proof.
  split.
  - intros <-. induction l as [|x l IH]; [constructor|]. destruct l as [|y l]; [apply joined_one|]. apply (joined_more sep x y l _ IH).
  - intros H. induction H as [| |x y l s H IH]; auto. rewrite <- IH. auto.
Qed.

(** ** Numbers *)
Lemma num_digits s n : num s n -> forall c, In c s -> In c digits.
Proof. rewrite num_iff. intros (_ & D & _) c I. apply digit_iff. rewrite forallb_forall in D. auto. Qed.
Lemma plus_not_digit t n : ~ num (43 :: t) n.
Proof. intros H. assert (X := num_digits _ _ H 43 (or_introl eq_refl)). apply in_digits in X. lia. Qed.
Lemma minus_not_digit t n : ~ num (45 :: t) n.
Proof. intros H. assert (X := num_digits _ _ H 45 (or_introl eq_refl)). apply in_digits in X. lia. Qed.
Lemma digits_read ds (max n : N) : match ds with [] => None | _ => if forallb is_ascii_digit ds then if digits_val ds <=? max then Some (digits_val ds) else None else None end = Some n <-> n <= max /\ num ds n.
Proof.
  rewrite num_iff. destruct ds as [|c ds]; [split; [discriminate|intros (_ & X & _); congruence]|]. destruct (forallb is_ascii_digit (c :: ds)); [|split; [discriminate|intros (_ & _ & X & _); discriminate]].
  destruct (N.leb_spec (digits_val (c :: ds)) max); split.
  - intros [= <-]. repeat split; auto. discriminate.
  - intros (_ & _ & _ & ->). auto.
  - discriminate.
  - intros (L & _ & _ & <-). lia.
Qed.
Lemma parse_unsigned_iff max s n : parse_unsigned max s = Some n <-> n <= max /\ (num s n \/ exists t, s = 43 :: t /\ num t n).
Proof.
  unfold parse_unsigned. rewrite digits_read. destruct (strip_prefix 43 s) as [t|] eqn:E.
  - apply strip_prefix_spec in E. subst s. split; intros [L H]; (split; [auto|]); [eauto|]. destruct H as [H|(t' & [= <-] & H)]; auto. destruct (plus_not_digit _ _ H).
  - split; intros [L H]; (split; [auto|]); auto. destruct H as [H|(t' & -> & H)]; auto. exfalso. apply (proj1 (strip_prefix_none _ _) E t'). auto.
Qed.
Lemma digits_signed ds (neg : bool) z : match ds with [] => None | _ => if forallb is_ascii_digit ds then
    let v := Z.of_N (digits_val ds) in let z := if neg then Z.opp v else v in if (i32_min <=? z)%Z && (z <=? i32_max)%Z then Some z else None else None end = Some z <->
  (- 2 ^ 31 <= z < 2 ^ 31)%Z /\ exists n, num ds n /\ z = if neg then (- Z.of_N n)%Z else Z.of_N n.
Proof.
  assert (R : forall z, (i32_min <=? z)%Z && (z <=? i32_max)%Z = true <-> (- 2 ^ 31 <= z < 2 ^ 31)%Z).
  { intros y. unfold i32_min, i32_max. change (2 ^ 31)%Z with 2147483648%Z. lia. }
  destruct ds as [|c ds]; [split; [discriminate|intros (_ & n & X & _); apply num_iff in X; destruct X as (X & _); congruence]|]. destruct (forallb is_ascii_digit (c :: ds)) eqn:D.
  2:{ split; [discriminate|]. intros (_ & n & X & _). apply num_iff in X as (_ & X & _). congruence. }
  assert (Nu : num (c :: ds) (digits_val (c :: ds))) by (apply num_iff; repeat split; auto; discriminate). cbv zeta.
  destruct ((i32_min <=? _)%Z && _) eqn:E.
  - apply R in E. split; [intros [= <-]; split; auto; eauto|]. intros (_ & n & X & ->). apply num_iff in X as (_ & _ & <-). auto.
  - split; [discriminate|]. intros (L & n & X & ->). apply num_iff in X as (_ & _ & <-). apply R in L. congruence.
Qed.
Lemma parse_i32_iff s z : parse_i32 s = Some z <-> (- 2 ^ 31 <= z < 2 ^ 31)%Z /\ signed s z.
Proof.
  unfold parse_i32, signed. change (lit "+") with [43]. change (lit "-") with [45]. cbn [app]. destruct (strip_prefix 45 s) as [t|] eqn:E.
  - apply strip_prefix_spec in E. subst s. etransitivity; [exact (digits_signed t true z)|]. split; intros [L H]; (split; [auto|]).
    + destruct H as (n & H & ->). exists n. right. right. eauto.
    + destruct H as (n & [(H & _)|[(t' & X & _)|(t' & [= <-] & H & ->)]]); [destruct (minus_not_digit _ _ H)|discriminate|eauto].
  - assert (N45 := proj1 (strip_prefix_none _ _) E). destruct (strip_prefix 43 s) as [t|] eqn:E2.
    + apply strip_prefix_spec in E2. subst s. etransitivity; [exact (digits_signed t false z)|]. split; intros [L H]; (split; [auto|]).
      * destruct H as (n & H & ->). exists n. right. left. eauto.
      * destruct H as (n & [(H & _)|[(t' & [= <-] & H & ->)|(t' & X & _)]]); [destruct (plus_not_digit _ _ H)|eauto|discriminate].
    + assert (N43 := proj1 (strip_prefix_none _ _) E2). etransitivity; [exact (digits_signed s false z)|]. split; intros [L H]; (split; [auto|]).
      * destruct H as (n & H & ->). exists n. left. auto.
      * destruct H as (n & [(H & ->)|[(t' & X & _)|(t' & X & _)]]); [eauto|destruct (N43 _ X)|destruct (N45 _ X)].
Qed.
Lemma shortened_unique a b n : num a n -> num b n -> shortened a -> shortened b -> a = b.
Proof.
  rewrite !num_iff. intros (Na & Da & Va) (Nb & Db & Vb) Sa Sb.
  assert (Len : forall a b, a <> [] -> b <> [] -> forallb is_ascii_digit a = true -> forallb is_ascii_digit b = true -> shortened b -> digits_val a = digits_val b -> (List.length b <= List.length a)%nat).
  { clear. intros a b Na Nb Da Db Sb E. destruct b as [|y b]; [congruence|]. destruct (N.eq_dec y 48) as [->|Ny].
    - rewrite (Sb b eq_refl). destruct a; [congruence|cbn; lia].
    - destruct (le_lt_dec (List.length (y :: b)) (List.length a)) as [|Lt]; auto. exfalso. assert (B := digits_val_bound a Da). rewrite E, digits_val_cons in B. cbn [List.length] in Lt.
      cbn [forallb] in Db. apply andb_true_iff in Db as [Dy _]. unfold is_ascii_digit in Dy. assert (10 ^ N.of_nat (List.length a) <= 10 ^ N.of_nat (List.length b)) by (apply N.pow_le_mono_r; lia). unfold digit_val in B. nia. }
  apply digits_val_inj; auto; [|congruence]. assert (L1 := Len a b Na Nb Da Db Sb ltac:(congruence)). assert (L2 := Len b a Nb Na Db Da Sa ltac:(congruence)). lia.
Qed.
Lemma dec_shortened n : shortened (dec n).
Proof.
  intros t E. destruct (dec_spec n) as (_ & _ & _ & H1 & H2). destruct (N.eq_dec n 0) as [->|N]; [rewrite (H2 eq_refl) in E; congruence|]. destruct (H1 N) as (c & t' & E' & Nc). congruence.
Qed.
Lemma dec_iff n s : dec n = s <-> num s n /\ shortened s.
Proof.
  split; [intros <-; split; [apply num_dec|apply dec_shortened]|]. intros [H S]. eapply shortened_unique; eauto; [apply num_dec|apply dec_shortened].
Qed.
Lemma length_unique a b n : num a n -> num b n -> List.length a = List.length b -> a = b.
Proof. rewrite !num_iff. intros (_ & Da & Va) (_ & Db & Vb) L. apply digits_val_inj; auto. congruence. Qed.
Lemma shortest a b n : num a n -> num b n -> shortened b -> (List.length b <= List.length a)%nat.
Proof.
  rewrite !num_iff. intros (Na & Da & Va) (Nb & Db & Vb) Sb. destruct b as [|y b]; [congruence|]. destruct (N.eq_dec y 48) as [->|Ny].
  - rewrite (Sb b eq_refl). destruct a; [congruence|cbn; lia].
  - destruct (le_lt_dec (List.length (y :: b)) (List.length a)) as [|Lt]; auto. exfalso. assert (B := digits_val_bound a Da). rewrite Va, <- Vb, digits_val_cons in B. cbn [List.length] in Lt.
    cbn [forallb] in Db. apply andb_true_iff in Db as [Dy _]. unfold is_ascii_digit in Dy. assert (10 ^ N.of_nat (List.length a) <= 10 ^ N.of_nat (List.length b)) by (apply N.pow_le_mono_r; lia). unfold digit_val in B. nia.
Qed.
Lemma pad_widened w n : num (pad w n) n /\ widened w (pad w n).
Proof.
  split; [apply num_pad|]. split; [apply pad_length_ge|]. unfold pad. rewrite app_length, zeros_length. destruct (le_lt_dec (List.length (dec n)) w) as [L|L]; [left; lia|right].
  replace (w - List.length (dec n))%nat with 0%nat by lia. apply dec_shortened.
Qed.
Lemma widened_unique w a b n : num a n -> num b n -> widened w a -> widened w b -> a = b.
Proof.
  intros Ha Hb (La & Wa) (Lb & Wb). destruct Wa as [Wa|Wa], Wb as [Wb|Wb].
  - eapply length_unique; eauto. congruence.
  - assert (X := shortest a b n Ha Hb Wb). eapply length_unique; eauto. lia.
  - assert (X := shortest b a n Hb Ha Wa). eapply length_unique; eauto. lia.
  - eapply shortened_unique; eauto.
Qed.
Lemma pad_iff w n s : pad w n = s <-> num s n /\ widened w s.
Proof. destruct (pad_widened w n) as [H1 H2]. split; [intros <-; auto|]. intros [H3 H4]. eapply widened_unique; eauto. Qed.
Lemma pad_signed_iff w z s : pad_signed w z = s <->
  (0 <= z)%Z /\ num s (Z.to_N z) /\ widened w s \/ (z < 0)%Z /\ exists t, s = 45 :: t /\ num t (Z.to_N (- z)) /\ widened (w - 1) t.
Proof.
  unfold pad_signed. destruct (Z.ltb_spec z 0) as [L|L].
  - replace (Z.abs_N z) with (Z.to_N (- z)) by lia. fold (pad (w - 1) (Z.to_N (- z))). split.
    + intros <-. right. split; auto. exists (pad (w - 1) (Z.to_N (- z))). split; auto. apply pad_iff. auto.
    + intros [(X & _)|(_ & t & -> & H)]; [lia|]. f_equal. apply pad_iff. auto.
  - replace (Z.abs_N z) with (Z.to_N z) by lia. rewrite pad_iff. split; [intros H; left; auto|]. intros [(_ & H)|(X & _)]; [auto|lia].
Qed.
