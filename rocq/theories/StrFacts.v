(** Lemmas about the string model. *)
From Coq Require Import List NArith ZArith Bool Ascii String Arith Lia.
From Coq Require Import ZifyBool ZifyNat ZifyN.
From Verif Require Import Str.
Import ListNotations.
Local Open Scope N_scope.
Ltac Zify.zify_post_hook ::= Z.div_mod_to_equations.

Arguments N.add : simpl never.
Arguments N.mul : simpl never.
Arguments N.sub : simpl never.
Arguments N.div : simpl never.
Arguments N.modulo : simpl never.
Arguments N.eqb : simpl never.
Arguments N.leb : simpl never.
Arguments N.ltb : simpl never.
Arguments Z.add : simpl never.
Arguments Z.mul : simpl never.
Arguments Z.sub : simpl never.
Arguments Z.opp : simpl never.
Arguments Z.div : simpl never.
Arguments Z.modulo : simpl never.
Arguments Z.eqb : simpl never.
Arguments Z.leb : simpl never.
Arguments Z.ltb : simpl never.
Arguments Z.of_N : simpl never.

(** ** Equality *)
Lemma str_eqb_refl s : str_eqb s s = true.
Proof. induction s; simpl; auto. rewrite N.eqb_refl; auto. Qed.

Lemma str_eqb_eq a b : str_eqb a b = true <-> a = b.
Proof.
  split; [|intros ->; apply str_eqb_refl].
  revert b; induction a as [|x a IH]; intros [|y b]; simpl; intros H; try discriminate; auto.
  apply andb_true_iff in H as [H1 H2]. apply N.eqb_eq in H1. f_equal; auto.
Qed.

Lemma str_eqb_neq a b : str_eqb a b = false <-> a <> b.
Proof. rewrite <- str_eqb_eq. destruct (str_eqb a b); split; congruence. Qed.

Lemma str_eqb_spec a b : reflect (a = b) (str_eqb a b).
Proof. apply iff_reflect. symmetry. apply str_eqb_eq. Qed.

Lemma str_eq_dec (a b : str) : {a = b} + {a <> b}.
Proof. apply list_eq_dec, N.eq_dec. Qed.

(** ** Lengths *)
Lemma utf8_len_pos c : (1 <= utf8_len c <= 4)%nat.
Proof. unfold utf8_len. repeat destruct (_ <? _); lia. Qed.

Lemma utf8_len_ascii c : is_ascii c = true -> utf8_len c = 1%nat.
Proof. unfold is_ascii, utf8_len. intros ->; auto. Qed.

Lemma utf8_len_1 c : utf8_len c = 1%nat <-> is_ascii c = true.
Proof. unfold is_ascii, utf8_len. repeat destruct (_ <? _); split; intros; try lia; auto; discriminate. Qed.

Lemma digit_ascii c : is_ascii_digit c = true -> is_ascii c = true.
Proof. unfold is_ascii_digit, is_ascii; lia. Qed.

Lemma byte_len_app a b : byte_len (a ++ b) = (byte_len a + byte_len b)%nat.
Proof. induction a; simpl; auto. rewrite IHa; lia. Qed.

Lemma byte_len_ascii s : forallb is_ascii s = true -> byte_len s = List.length s.
Proof.
  induction s; simpl; auto. intros H; apply andb_true_iff in H as [H1 H2].
  rewrite IHs, utf8_len_ascii by auto. auto.
Qed.

Lemma forallb_impl {A} (f g : A -> bool) l :
  (forall x, f x = true -> g x = true) -> forallb f l = true -> forallb g l = true.
Proof. intros H; induction l; simpl; auto. rewrite !andb_true_iff; intuition. Qed.

Lemma digits_ascii s : forallb is_ascii_digit s = true -> forallb is_ascii s = true.
Proof. apply forallb_impl, digit_ascii. Qed.

Lemma byte_len_digits s : forallb is_ascii_digit s = true -> byte_len s = List.length s.
Proof. intros; apply byte_len_ascii, digits_ascii; auto. Qed.

Lemma byte_len_ge_length s : (List.length s <= byte_len s)%nat.
Proof. induction s; simpl; auto. pose proof (utf8_len_pos a); lia. Qed.

Lemma byte_len_0 s : byte_len s = 0%nat -> s = [].
Proof. destruct s; auto; simpl. pose proof (utf8_len_pos n); lia. Qed.

(** ** split_at *)
Lemma split_at_spec s : forall n a b,
  split_at s n = Some (a, b) <-> s = a ++ b /\ byte_len a = n.
Proof.
  induction s as [|c s IH]; intros n a b.
  - destruct n; simpl; split.
    + intros [= <- <-]; auto.
    + intros [H1 H2]. symmetry in H1. apply app_eq_nil in H1 as [-> ->]; auto.
    + discriminate.
    + intros [H1 H2]. symmetry in H1. apply app_eq_nil in H1 as [-> ->]; discriminate.
  - destruct n as [|n].
    + simpl; split.
      * intros [= <- <-]; auto.
      * intros [H1 H2]. apply byte_len_0 in H2; subst a. simpl in H1. subst b. auto.
    + cbn [split_at]. destruct (utf8_len c <=? S n)%nat eqn:E.
      * destruct (split_at s (S n - utf8_len c)) as [[a' b']|] eqn:E2.
        -- apply IH in E2 as [-> E2]. split.
           ++ intros [= <- <-]. simpl. split; auto. lia.
           ++ intros [H1 H2]. destruct a as [|x a]; cbn [app byte_len] in *; [lia|].
              injection H1 as -> H1.
              assert (split_at (a' ++ b') (S n - utf8_len x) = Some (a, b)) as H3
                by (apply IH; split; auto; lia).
              assert (split_at (a' ++ b') (S n - utf8_len x) = Some (a', b')) as H4
                by (apply IH; split; auto; lia).
              rewrite H3 in H4. injection H4 as -> ->. auto.
        -- split; [discriminate|]. intros [H1 H2].
           destruct a as [|x a]; cbn [app byte_len] in *; [lia|]. injection H1 as -> ->.
           assert (split_at (a ++ b) (S n - utf8_len x) = Some (a, b)) as H3
               by (apply IH; split; auto; lia). congruence.
      * split; [discriminate|]. intros [H1 H2].
        destruct a as [|x a]; cbn [app byte_len] in *; [lia|]. injection H1 as -> ->. lia.
Qed.

Lemma split_at_app a b : split_at (a ++ b) (byte_len a) = Some (a, b).
Proof. apply split_at_spec; auto. Qed.

Lemma app_byte_inj a b a' b' :
  a ++ b = a' ++ b' -> byte_len a = byte_len a' -> a = a' /\ b = b'.
Proof.
  intros E L. pose proof (split_at_app a b) as S1. pose proof (split_at_app a' b') as S2.
  rewrite E, L, S2 in S1. injection S1 as -> ->. auto.
Qed.

Lemma slice_spec s i j m :
  slice s i j = Ok m <->
  exists a b, s = a ++ m ++ b /\ byte_len a = i /\ (byte_len a + byte_len m)%nat = j.
Proof.
  unfold slice. split.
  - destruct (split_at s j) as [[p q]|] eqn:E; [|discriminate].
    destruct (split_at p i) as [[x y]|] eqn:E2; [|discriminate].
    intros [= <-]. apply split_at_spec in E as [-> <-]. apply split_at_spec in E2 as [-> <-].
    exists x, q. rewrite byte_len_app, <- app_assoc; auto.
  - intros (a & b & -> & <- & <-).
    rewrite app_assoc, <- byte_len_app, split_at_app, split_at_app. auto.
Qed.

(** ** count / contains *)
Lemma count_app c a b : count c (a ++ b) = (count c a + count c b)%nat.
Proof. induction a; simpl; auto. rewrite IHa; lia. Qed.

Lemma contains_count c s : contains c s = negb (count c s =? 0)%nat.
Proof.
  induction s as [|x s IH]; simpl; auto.
  fold (contains c s). rewrite IH. destruct (c =? x); simpl; auto.
Qed.

Lemma contains_false c s : contains c s = false <-> ~ In c s.
Proof.
  unfold contains. split.
  - intros H Hin. assert (existsb (N.eqb c) s = true).
    { apply existsb_exists. exists c; split; auto. apply N.eqb_refl. } congruence.
  - intros H. destruct (existsb (N.eqb c) s) eqn:E; auto.
    apply existsb_exists in E as (x & Hx & E). apply N.eqb_eq in E; subst; tauto.
Qed.

Lemma count_not_in c s : ~ In c s -> count c s = 0%nat.
Proof.
  induction s as [|x s IH]; simpl; auto. intros H.
  rewrite IH by tauto. destruct (N.eqb_spec c x); [subst; tauto|auto].
Qed.

Lemma count_0_not_in c s : count c s = 0%nat -> ~ In c s.
Proof.
  induction s as [|x s IH]; simpl; auto. intros H [Hx|Hs].
  - subst. rewrite N.eqb_refl in H. lia.
  - apply IH; auto. lia.
Qed.

Lemma digits_not_in c s :
  forallb is_ascii_digit s = true -> is_ascii_digit c = false -> ~ In c s.
Proof. intros H1 H2 Hin. rewrite forallb_forall in H1. rewrite H1 in H2 by auto. discriminate. Qed.

Lemma count_digits c s :
  forallb is_ascii_digit s = true -> is_ascii_digit c = false -> count c s = 0%nat.
Proof. intros; apply count_not_in, digits_not_in; auto. Qed.

(** ** split_before *)
Lemma split_before_spec c k s a b :
  split_before c k s = Some (a, b) <->
  s = a ++ b /\ count c a = k /\ exists t, b = c :: t.
Proof.
  revert k a b; induction s as [|x s IH]; intros k a b; cbn [split_before].
  - split; [discriminate|]. intros (H & _ & t & ->). destruct a; discriminate.
  - destruct (N.eqb_spec c x) as [<-|Hne].
    + destruct k as [|k].
      * split.
        -- intros [= <- <-]; eauto.
        -- intros (H1 & H2 & t & ->). destruct a as [|y a]; simpl in *.
           ++ rewrite H1; auto.
           ++ injection H1 as <- ->. rewrite N.eqb_refl in H2; lia.
      * split.
        -- destruct (split_before c k s) as [[a' b']|] eqn:E; [|discriminate].
           intros [= <- <-]. apply IH in E as (-> & E2 & E3).
           simpl. rewrite N.eqb_refl. eauto.
        -- intros (H1 & H2 & H3). destruct a as [|y a]; simpl in *; [lia|].
           injection H1 as -> ->. rewrite N.eqb_refl in H2.
           assert (split_before y k (a ++ b) = Some (a, b)) as ->
             by (apply IH; repeat split; auto; lia). auto.
    + split.
      * destruct (split_before c k s) as [[a' b']|] eqn:E; [|discriminate].
        intros [= <- <-]. apply IH in E as (-> & E2 & E3). simpl.
        apply N.eqb_neq in Hne as ->. eauto.
      * intros (H1 & H2 & t & ->). destruct a as [|y a]; simpl in *; [congruence|].
        injection H1 as -> ->. apply N.eqb_neq in Hne as Hne'. rewrite Hne' in H2.
        assert (split_before c k (a ++ c :: t) = Some (a, c :: t)) as ->
             by (apply IH; repeat split; eauto). auto.
Qed.

Lemma split_before_some c k s :
  (k < count c s)%nat -> exists a t, split_before c k s = Some (a, c :: t).
Proof.
  revert k; induction s as [|x s IH]; intros k H; simpl in *; [lia|].
  destruct (N.eqb_spec c x) as [<-|Hne].
  - destruct k as [|k]; [exists [], s; auto|].
    destruct (IH k) as (a & t & ->); [lia|]. exists (c :: a), t; auto.
  - destruct (IH k) as (a & t & ->); [lia|]. exists (x :: a), t; auto.
Qed.

(** ** strip *)
Lemma strip_prefix_spec c s t : strip_prefix c s = Some t <-> s = c :: t.
Proof.
  destruct s as [|x s]; simpl; [split; discriminate|].
  destruct (N.eqb_spec c x) as [<-|Hne]; split; intros H; try discriminate.
  - injection H as <-; auto.
  - injection H as <-; auto.
  - injection H as <- <-. tauto.
Qed.

Lemma strip_prefix_none c s : strip_prefix c s = None <-> forall t, s <> c :: t.
Proof.
  destruct s as [|x s]; simpl; [split; auto; intros; discriminate|].
  destruct (N.eqb_spec c x); split; intros H; try discriminate; auto.
  - subst. exfalso. apply (H s); auto.
  - intros t [= -> ->]; auto.
Qed.

Lemma strip_suffix_spec c s p : strip_suffix c s = Some p <-> s = p ++ [c].
Proof.
  revert p; induction s as [|x s IH]; intros p.
  - simpl; split; [discriminate|]. intros H; destruct p; discriminate.
  - cbn [strip_suffix]. destruct s as [|y s].
    + destruct (N.eqb_spec c x); split; intros H; try discriminate.
      * injection H as <-. subst; auto.
      * destruct p as [|z p]; auto. destruct p; discriminate.
      * destruct p as [|z p]; [simpl in H; injection H as <-; tauto|]. destruct p; discriminate.
    + destruct (strip_suffix c (y :: s)) as [q|] eqn:E.
      * assert (E1 : y :: s = q ++ [c]) by (apply IH; auto). rewrite E1. split.
        -- intros [= <-]; auto.
        -- intros H. destruct p as [|z p]; simpl in H.
           ++ injection H as _ H. destruct q; discriminate.
           ++ injection H as -> H. apply app_inj_tail in H as [-> _]; auto.
      * split; [discriminate|]. intros H. destruct p as [|z p]; simpl in H; [discriminate|].
        injection H as -> H. apply IH in H. congruence.
Qed.

Lemma strip_suffix_none c s : strip_suffix c s = None <-> forall p, s <> p ++ [c].
Proof.
  split.
  - intros H p E. apply strip_suffix_spec in E. congruence.
  - intros H. destruct (strip_suffix c s) as [p|] eqn:E; auto.
    apply strip_suffix_spec in E. exfalso; eapply H; eauto.
Qed.

(** ** split_on *)
Lemma split_on_nonempty c s : split_on c s <> [].
Proof. destruct s as [|x s]; simpl; try discriminate. destruct (c =? x); try discriminate.
       destruct (split_on c s); discriminate. Qed.

Lemma split_on_none c s : ~ In c s -> split_on c s = [s].
Proof.
  induction s as [|x s IH]; simpl; auto. intros H.
  destruct (N.eqb_spec c x); [subst; tauto|]. rewrite IH by tauto. auto.
Qed.

Lemma split_on_app c a b : ~ In c a -> split_on c (a ++ c :: b) = a :: split_on c b.
Proof.
  induction a as [|x a IH]; simpl; intros H.
  - rewrite N.eqb_refl; auto.
  - destruct (N.eqb_spec c x); [subst; tauto|]. rewrite IH by tauto. auto.
Qed.

Lemma split_on_2 c s a b : split_on c s = [a; b] <-> s = a ++ c :: b /\ ~ In c a /\ ~ In c b.
Proof.
  split.
  - revert a b; induction s as [|x s IH]; intros a b; simpl; [discriminate|].
    destruct (N.eqb_spec c x) as [<-|Hne].
    + intros [= <- H]. destruct s as [|y s]; simpl in *.
      * injection H as <-. auto.
      * assert (forall t, split_on c t = [b] -> t = b /\ ~ In c b) as Hone.
        { clear. induction t as [|z t IHt] in b |- *; simpl.
          - intros [= <-]; auto.
          - destruct (N.eqb_spec c z) as [<-|Hne].
            + intros [= <- H]. apply split_on_nonempty in H; tauto.
            + pose proof (split_on_nonempty c t).
              destruct (split_on c t) as [|p ps] eqn:E; [tauto|].
              intros [= <- ->]. destruct (IHt p eq_refl) as [-> Hn].
              split; auto. simpl; intros [->|]; tauto. }
        apply (Hone (y :: s)) in H as [-> H]. auto.
    + pose proof (split_on_nonempty c s).
      destruct (split_on c s) as [|p ps] eqn:E; [tauto|].
      intros [= <- ->]. destruct (IH p b eq_refl) as (-> & H1 & H2).
      repeat split; auto. simpl; intros [->|]; tauto.
  - intros (-> & H1 & H2). rewrite split_on_app, split_on_none by auto. auto.
Qed.

(** ** Decimal numbers *)
Lemma digits_acc_app acc a b : digits_acc acc (a ++ b) = digits_acc (digits_acc acc a) b.
Proof. unfold digits_acc. apply fold_left_app. Qed.

Lemma digits_acc_shift acc s :
  digits_acc acc s = acc * 10 ^ N.of_nat (List.length s) + digits_val s.
Proof.
  unfold digits_val. revert acc; induction s as [|c s IH]; intros acc.
  - cbn. lia.
  - unfold digits_acc in *. cbn [fold_left List.length].
    rewrite IH, (IH (0 * 10 + _)). rewrite Nat2N.inj_succ, N.pow_succ_r'. ring.
Qed.

Lemma digits_val_cons c s :
  digits_val (c :: s) = digit_val c * 10 ^ N.of_nat (List.length s) + digits_val s.
Proof.
  change (digits_val (c :: s)) with (digits_acc (0 * 10 + digit_val c) s).
  rewrite digits_acc_shift. reflexivity.
Qed.

Lemma digits_val_app a b :
  digits_val (a ++ b) = digits_val a * 10 ^ N.of_nat (List.length b) + digits_val b.
Proof. unfold digits_val at 1. rewrite digits_acc_app, digits_acc_shift. auto. Qed.

Lemma digits_val_bound s :
  forallb is_ascii_digit s = true -> digits_val s < 10 ^ N.of_nat (List.length s).
Proof.
  induction s as [|c s IH]; intros H; [cbn; lia|].
  cbn [forallb] in H. apply andb_true_iff in H as [H1 H2]. specialize (IH H2).
  rewrite digits_val_cons. cbn [List.length]. rewrite Nat2N.inj_succ, N.pow_succ_r'.
  unfold is_ascii_digit in H1. unfold digit_val.
  assert (c - 48 <= 9) by lia. nia.
Qed.

Lemma digits_val_zeros k s : digits_val (zeros k ++ s) = digits_val s.
Proof.
  rewrite digits_val_app. assert (digits_val (zeros k) = 0) as ->; [|lia].
  induction k; auto.
Qed.

Lemma zeros_digits k : forallb is_ascii_digit (zeros k) = true.
Proof. induction k; auto. Qed.

Lemma zeros_length k : List.length (zeros k) = k.
Proof. induction k; simpl; auto. Qed.

Lemma dec_aux_spec fuel n acc :
  (N.size_nat n < fuel)%nat ->
  exists ds, dec_aux fuel n acc = ds ++ acc /\ forallb is_ascii_digit ds = true /\
             digits_val ds = n /\ ds <> [] /\
             (n <> 0 -> exists c t, ds = c :: t /\ c <> 48) /\ (n = 0 -> ds = [48]).
Proof.
  revert n acc; induction fuel as [|f IH]; intros n acc Hf; [lia|].
  cbn [dec_aux].
  assert (Hdig : is_ascii_digit (48 + n mod 10) = true).
  { unfold is_ascii_digit. pose proof (N.mod_lt n 10). lia. }
  destruct (N.eqb_spec (n / 10) 0) as [E|E].
  - exists [48 + n mod 10]. split; [reflexivity|]. split; [cbn [forallb]; rewrite Hdig; auto|].
    assert (n mod 10 = n) by lia.
    split; [|split; [discriminate|split]].
    + rewrite digits_val_cons. cbn [List.length]. change (digits_val []) with 0.
      unfold digit_val. cbn [N.of_nat]. change (10 ^ 0) with 1. lia.
    + intros Hn. exists (48 + n mod 10), []. split; auto. lia.
    + intros ->. reflexivity.
  - destruct (IH (n / 10) ((48 + n mod 10) :: acc)) as (ds & H1 & H2 & H3 & H4 & H5 & H6).
    { assert (n / 10 < n) by (apply N.div_lt; lia).
      assert (2 * (n / 10) < n) by lia.
      destruct n as [|p]; [lia|]. destruct (N.pos p / 10) as [|q]; [simpl in *; lia|].
      simpl in *. assert (Pos.lt (xO q) p) by lia.
      clear - H1 Hf. revert Hf. enough (Pos.size_nat q < Pos.size_nat p)%nat by lia.
      assert (Hle : forall a b, Pos.le a b -> (Pos.size_nat a <= Pos.size_nat b)%nat).
      { clear. intros a b H. apply Pos.lt_eq_cases in H as [H| ->]; auto.
        apply Pos.size_nat_monotone in H. auto. }
      specialize (Hle (xO q) p). simpl in Hle. lia. }
    exists (ds ++ [48 + n mod 10]). rewrite H1, <- app_assoc. split; [reflexivity|].
    split; [rewrite forallb_app, H2; cbn [forallb]; rewrite Hdig; auto|].
    split; [|split; [destruct ds; discriminate|split]].
    + rewrite digits_val_app, H3, digits_val_cons. cbn [List.length].
      change (digits_val []) with 0. unfold digit_val. cbn [N.of_nat].
      change (10 ^ 0) with 1. change (10 ^ N.of_nat 1) with 10. lia.
    + intros _. destruct (H5 E) as (c & t & -> & Hc). eexists _, _. split; [reflexivity|auto].
    + intros ->. rewrite N.div_0_l in E by lia. congruence.
Qed.

Lemma dec_spec n :
  forallb is_ascii_digit (dec n) = true /\ digits_val (dec n) = n /\ dec n <> [] /\
  (n <> 0 -> exists c t, dec n = c :: t /\ c <> 48) /\ (n = 0 -> dec n = [48]).
Proof.
  unfold dec. destruct (dec_aux_spec (S (N.size_nat n)) n []) as (ds & -> & H); [lia|].
  rewrite app_nil_r; auto.
Qed.

Lemma dec_digits n : forallb is_ascii_digit (dec n) = true.
Proof. apply dec_spec. Qed.
Lemma dec_val n : digits_val (dec n) = n.
Proof. apply dec_spec. Qed.
Lemma dec_nonempty n : dec n <> [].
Proof. apply dec_spec. Qed.

Lemma dec_length n k : n < 10 ^ N.of_nat k -> (1 <= k)%nat -> (List.length (dec n) <= k)%nat.
Proof.
  intros H Hk. destruct (dec_spec n) as (H1 & H2 & H3 & H4 & H5).
  destruct (N.eq_dec n 0) as [E|E]; [rewrite H5 by auto; simpl; lia|].
  destruct (H4 E) as (c & t & Ht & Hc). rewrite Ht in *.
  cbn [forallb] in H1. apply andb_true_iff in H1 as [Hd H1].
  rewrite digits_val_cons in H2. cbn [List.length].
  destruct (le_lt_dec (S (List.length t)) k) as [|Hlt]; auto. exfalso.
  assert (10 ^ N.of_nat k <= 10 ^ N.of_nat (List.length t)) by (apply N.pow_le_mono_r; lia).
  unfold is_ascii_digit in Hd. unfold digit_val in H2. nia.
Qed.

Lemma dec_inj a b : dec a = dec b -> a = b.
Proof. intros H. rewrite <- (dec_val a), H, dec_val. auto. Qed.

Lemma pad_digits w n : forallb is_ascii_digit (pad w n) = true.
Proof. unfold pad. rewrite forallb_app, zeros_digits, dec_digits. auto. Qed.
Lemma pad_val w n : digits_val (pad w n) = n.
Proof. unfold pad. rewrite digits_val_zeros. apply dec_val. Qed.
Lemma pad_nonempty w n : pad w n <> [].
Proof. unfold pad. intros H. apply app_eq_nil in H as [_ H]. apply dec_nonempty in H; auto. Qed.
Lemma pad_length_ge w n : (w <= List.length (pad w n))%nat.
Proof. unfold pad. rewrite app_length, zeros_length. lia. Qed.
Lemma pad_length w n : n < 10 ^ N.of_nat w -> (1 <= w)%nat -> List.length (pad w n) = w.
Proof.
  intros H Hw. unfold pad. rewrite app_length, zeros_length.
  pose proof (dec_length n w H Hw). lia.
Qed.

(** Digit strings of equal length and value are equal. *)
Lemma digits_val_inj a b :
  forallb is_ascii_digit a = true -> forallb is_ascii_digit b = true ->
  List.length a = List.length b -> digits_val a = digits_val b -> a = b.
Proof.
  revert b; induction a as [|x a IH]; intros [|y b] Ha Hb Hl Hv; try discriminate; auto.
  cbn [forallb List.length] in *. apply andb_true_iff in Ha as [Hx Ha].
  apply andb_true_iff in Hb as [Hy Hb]. injection Hl as Hl.
  rewrite !digits_val_cons, Hl in Hv.
  pose proof (digits_val_bound a Ha) as Ba. pose proof (digits_val_bound b Hb) as Bb.
  rewrite Hl in Ba. set (P := 10 ^ N.of_nat (List.length b)) in *.
  unfold is_ascii_digit in *. unfold digit_val in *.
  assert (x - 48 = y - 48) by nia.
  f_equal; [lia|]. apply IH; auto. nia.
Qed.

Lemma pad2 n : n < 100 -> pad 2 n = [48 + n / 10; 48 + n mod 10].
Proof.
  intros H. apply digits_val_inj.
  - apply pad_digits.
  - cbn [forallb]. unfold is_ascii_digit. lia.
  - rewrite pad_length; auto.
  - rewrite pad_val. rewrite !digits_val_cons. cbn [List.length].
    change (digits_val []) with 0. change (10 ^ N.of_nat 1) with 10.
    change (10 ^ N.of_nat 0) with 1. unfold digit_val. lia.
Qed.

Lemma digits2_val x y : digits_val [x; y] = (x - 48) * 10 + (y - 48).
Proof.
  rewrite !digits_val_cons. cbn [List.length].
  change (digits_val []) with 0. change (10 ^ N.of_nat 1) with 10.
  change (10 ^ N.of_nat 0) with 1. unfold digit_val. lia.
Qed.
