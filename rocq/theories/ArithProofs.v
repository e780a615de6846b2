(** Arithmetic on doubles (Coq's SpecFloat) is correctly rounded. *)
From Coq Require Import NArith ZArith Bool List Lia.
From Coq Require Import Floats.SpecFloat.
From Verif Require Import Str SpecLex SpecDouble Dur DurProofs Float FloatProofs.
Import ListNotations.
Local Open Scope Z_scope.

(** ** Shifting to the right *)
(** The bits shifted out of [m] by [n] places: [r] is the first, [s] tells if there are others. *)
Definition rest_of (n : nat) (m q : Z) (r s : bool) : Prop :=
  exists t, m = q * 2 ^ Z.of_nat n + t /\ 0 <= t < 2 ^ Z.of_nat n /\
    match r, s with
    | false, false => t = 0
    | false, true => 0 < t /\ 2 * t < 2 ^ Z.of_nat n
    | true, false => 0 < t /\ 2 * t = 2 ^ Z.of_nat n
    | true, true => 2 ^ Z.of_nat n < 2 * t
    end.
Lemma shift_once n m q r s : 0 <= q -> rest_of n m q r s ->
  let x := shr_1 {| shr_m := q; shr_r := r; shr_s := s |} in 0 <= shr_m x /\ rest_of (S n) m (shr_m x) (shr_r x) (shr_s x).
Proof.
  intros Q (t & -> & T & C). assert (E : 2 ^ Z.of_nat (S n) = 2 * 2 ^ Z.of_nat n) by (rewrite Nat2Z.inj_succ, Z.pow_succ_r; lia).
  assert (W : 0 < 2 ^ Z.of_nat n) by (apply Z.pow_pos_nonneg; lia). unfold rest_of. rewrite E. set (w := 2 ^ Z.of_nat n) in *. clearbody w.
  destruct q as [|p|p]; [| |lia].
  - cbn. split; [lia|]. exists t. split; [lia|]. split; [lia|]. destruct r, s; cbn; lia.
  - destruct p as [p|p|]; cbn; (split; [lia|]); [exists (w + t)|exists t|exists (w + t)]; (split; [nia|]); (split; [lia|]); destruct r, s; cbn; lia.
Qed.
Lemma shift_many p m : 0 <= m -> let x := iter_pos shr_1 p {| shr_m := m; shr_r := false; shr_s := false |} in
  0 <= shr_m x /\ rest_of (Pos.to_nat p) m (shr_m x) (shr_r x) (shr_s x).
Proof.
  intros M. assert (G : forall p x n, 0 <= shr_m x -> rest_of n m (shr_m x) (shr_r x) (shr_s x) ->
    let y := iter_pos shr_1 p x in 0 <= shr_m y /\ rest_of (n + Pos.to_nat p) m (shr_m y) (shr_r y) (shr_s y)).
  { clear M p. induction p as [p IH|p IH|]; intros x n Q R; cbn [iter_pos].
    - destruct (shift_once n m _ _ _ Q R) as [Q1 R1]. destruct x as [a b c]. cbn [shr_m shr_r shr_s] in *. destruct (IH _ _ Q1 R1) as [Q2 R2]. destruct (IH _ _ Q2 R2) as [Q3 R3]. split; auto.
      replace (n + Pos.to_nat p~1)%nat with (S n + Pos.to_nat p + Pos.to_nat p)%nat by lia. auto.
    - destruct (IH _ _ Q R) as [Q2 R2]. destruct (IH _ _ Q2 R2) as [Q3 R3]. split; auto. replace (n + Pos.to_nat p~0)%nat with (n + Pos.to_nat p + Pos.to_nat p)%nat by lia. auto.
    - destruct (shift_once n m _ _ _ Q R) as [Q1 R1]. destruct x as [a b c]. cbn [shr_m shr_r shr_s] in *. split; auto. replace (n + Pos.to_nat 1)%nat with (S n) by lia. auto. }
  apply (G p _ 0%nat); cbn [shr_m shr_r shr_s]; auto. exists 0. cbn. lia.
Qed.
(** Rounding what is left is rounding to the nearest even number. *)
Lemma rest_rounded n m x : 0 <= shr_m x -> rest_of n m (shr_m x) (shr_r x) (shr_s x) -> round_nearest_even (shr_m x) (loc_of_shr_record x) = round_half_even m (2 ^ Z.of_nat n).
Proof.
  intros Q (t & E & T & C). assert (W : 0 < 2 ^ Z.of_nat n) by (apply Z.pow_pos_nonneg; lia). set (w := 2 ^ Z.of_nat n) in *. clearbody w. symmetry. destruct x as [q r s]. cbn [shr_m shr_r shr_s loc_of_shr_record] in *.
  destruct r, s; cbn [round_nearest_even]; [| |apply rhe_unique; lia|apply rhe_unique; lia].
  - apply rhe_unique; lia.
  - destruct (Z.even q) eqn:Ev; apply rhe_unique; try lia; intros _; auto. rewrite Z.even_add, Ev. reflexivity.
Qed.
Lemma rhe_scaled a b c : 0 < b -> 0 < c -> round_half_even (a * c) (b * c) = round_half_even a b.
Proof.
  intros B C. destruct (rhe_ok a b B) as [N E]. set (m := round_half_even a b) in *. clearbody m. assert (X : 2 * Z.abs (a * c - m * (b * c)) = (2 * Z.abs (a - m * b)) * c).
  { replace (a * c - m * (b * c)) with ((a - m * b) * c) by ring. rewrite Z.abs_mul, (Z.abs_eq c) by lia. ring. }
  apply rhe_unique; [nia|rewrite X; nia|]. rewrite X. intros Y. apply E. nia.
Qed.

(** ** Rounding *)
Lemma shift_left_id m n : shr_fexp 53 1024 m n loc_Exact = shr {| shr_m := m; shr_r := false; shr_s := false |} n (fexp 53 1024 (Zdigits2 m + n) - n).
Proof. reflexivity. Qed.
Lemma fexp_eq x : fexp 53 1024 x = Z.max (x - 53) (-1074).
Proof. reflexivity. Qed.
Lemma digits_pos p : Zdigits2 (Zpos p) = Z.log2 (Zpos p) + 1.
Proof. apply digits2_log. Qed.
Lemma log2_floor_pow m e : 0 < m -> log2_floor (m * 2 ^ Z.max e 0) (2 ^ Z.max (- e) 0) = Z.log2 m + e.
Proof.
  intros M. assert (P1 := pow_max e). assert (P2 := pow_max (- e)). unfold log2_floor. rewrite Z.log2_mul_pow2, Z.log2_pow2 by lia. set (l := Z.max e 0 + Z.log2 m - Z.max (- e) 0).
  assert (El : l = Z.log2 m + e) by lia. destruct (Z.log2_spec m M) as [L1 L2]. set (g := Z.log2 m) in *. assert (G : 0 <= g) by apply Z.log2_nonneg.
  destruct (Z.leb_spec (2 ^ Z.max (- e) 0 * 2 ^ Z.max l 0) (m * 2 ^ Z.max e 0 * 2 ^ Z.max (- l) 0)) as [|X]; auto. exfalso. rewrite <- Z.pow_add_r in X by lia. rewrite <- Z.mul_assoc, <- Z.pow_add_r in X by lia.
  assert (Y : 2 ^ g * 2 ^ (Z.max e 0 + Z.max (- l) 0) <= m * 2 ^ (Z.max e 0 + Z.max (- l) 0)) by (apply Z.mul_le_mono_nonneg_r; [apply Z.lt_le_incl, pow_pos; lia|auto]). rewrite <- Z.pow_add_r in Y by lia.
  replace (g + (Z.max e 0 + Z.max (- l) 0)) with (Z.max (- e) 0 + Z.max l 0) in Y by lia. lia.
Qed.
Lemma round_aux_ratio sx p e : e <= fexp 53 1024 (Zdigits2 (Zpos p) + e) ->
  binary_round_aux 53 1024 sx (Zpos p) e loc_Exact = round_ratio sx (Zpos p * 2 ^ Z.max e 0) (2 ^ Z.max (- e) 0).
Proof.
  intros F. assert (P1 := pow_max e). assert (P2 := pow_max (- e)). set (a := Zpos p * 2 ^ Z.max e 0). set (b := 2 ^ Z.max (- e) 0).
  assert (A : 0 < a) by (apply Z.mul_pos_pos; lia). rewrite round_ratio_eq. destruct (mantissa_nearest a b A P2) as (Mb & _ & _).
  assert (Ee : exponent_of a b = fexp 53 1024 (Zdigits2 (Zpos p) + e)). { unfold exponent_of, a, b. rewrite log2_floor_pow by lia. rewrite fexp_eq, digits_pos. lia. }
  unfold mantissa_of in *. rewrite Ee in *. set (E := fexp 53 1024 (Zdigits2 (Zpos p) + e)) in *. assert (E0 : -1074 <= E) by (unfold E; rewrite fexp_eq; lia).
  assert (Me : round_half_even (up a E) (down b E) = round_half_even (Zpos p) (2 ^ (E - e))).
  { assert (X : up a E = Zpos p * 2 ^ (Z.max e 0 + Z.max (- E) 0)) by (unfold up, a; rewrite Z.pow_add_r by lia; ring). assert (Y : down b E = 2 ^ (E - e) * 2 ^ (Z.max e 0 + Z.max (- E) 0)).
    { unfold down, b. rewrite <- !Z.pow_add_r by lia. f_equal. lia. } rewrite X, Y. apply rhe_scaled; apply pow_pos; lia. }
  rewrite Me in *. clear Me. unfold binary_round_aux. rewrite shift_left_id. fold E.
  assert (S : exists x, shr {| shr_m := Zpos p; shr_r := false; shr_s := false |} e (E - e) = (x, E) /\ round_nearest_even (shr_m x) (loc_of_shr_record x) = round_half_even (Zpos p) (2 ^ (E - e))).
  { destruct (E - e) as [|k|k] eqn:D; [| |lia]; cbn [shr].
    - eexists. split; [f_equal; lia|]. cbn. unfold round_half_even. change (2 ^ 0) with 1. rewrite Z.mod_1_r, Z.div_1_r. reflexivity.
    - eexists. split; [f_equal; lia|]. destruct (shift_many k (Zpos p) ltac:(lia)) as [Q R]. rewrite (rest_rounded _ _ _ Q R). f_equal. f_equal. lia. }
  destruct S as (x & -> & ->). set (m := round_half_even (Zpos p) (2 ^ (E - e))) in *. clearbody m E. rewrite shift_left_id.
  destruct (m =? 2 ^ 53) eqn:M.
  - apply Z.eqb_eq in M. subst m. replace (fexp 53 1024 (Zdigits2 (2 ^ 53) + E) - E) with 1 by (rewrite fexp_eq; change (Zdigits2 (2 ^ 53)) with 54; lia).
    change (shr {| shr_m := 2 ^ 53; shr_r := false; shr_s := false |} E 1) with ({| shr_m := 4503599627370496; shr_r := false; shr_s := false |}, E + 1). cbn [shr_m]. change (2 ^ 52) with 4503599627370496. cbv iota. change (1024 - 53) with 971.
    destruct (Z.leb_spec (E + 1) 971), (Z.ltb_spec 971 (E + 1)); auto; lia.
  - apply Z.eqb_neq in M. assert (D : Zdigits2 m <= 53). { destruct m as [|q|q]; [cbn; lia| |lia]. rewrite digits_pos. assert (Z.log2 (Zpos q) < 53) by (apply Z.log2_lt_pow2; lia). lia. }
    assert (Sh : shr {| shr_m := m; shr_r := false; shr_s := false |} E (fexp 53 1024 (Zdigits2 m + E) - E) = ({| shr_m := m; shr_r := false; shr_s := false |}, E)).
    { assert (X : fexp 53 1024 (Zdigits2 m + E) - E <= 0) by (rewrite fexp_eq; lia). destruct (fexp 53 1024 (Zdigits2 m + E) - E); try reflexivity. lia. }
    rewrite Sh. cbn [shr_m]. change (1024 - 53) with 971. destruct m as [|q|q]; auto; [|lia]. destruct (Z.leb_spec E 971), (Z.ltb_spec 971 E); auto; lia.
Qed.
Lemma shift_left p e E : let '(q, f) := shl_align p e E in f = Z.min e E /\ Zpos q = Zpos p * 2 ^ (e - Z.min e E).
Proof.
  unfold shl_align. destruct (E - e) as [|k|k] eqn:D.
  - split; [lia|]. replace (e - Z.min e E) with 0 by lia. cbn. lia.
  - split; [lia|]. replace (e - Z.min e E) with 0 by lia. cbn. lia.
  - split; [lia|]. rewrite shift_pos_correct. replace (e - Z.min e E) with (Zpos k) by lia. rewrite <- Z.pow_pos_fold. ring.
Qed.
Lemma round_ratio_scaled s a b c : 0 < a -> 0 < b -> 0 < c -> round_ratio s (a * c) (b * c) = round_ratio s a b.
Proof.
  intros A B C. assert (L : log2_floor (a * c) (b * c) = log2_floor a b).
  { set (l := log2_floor a b). assert (N : 0 <= Z.max (- l) 0 /\ 0 <= Z.max (- l) 0 + l) by lia. destruct (log2_floor_ok a b _ A B (proj1 N) (proj2 N)) as [X Y]. fold l in X, Y.
    apply log2_floor_unique; [nia|nia| |].
    - unfold down, up. replace (Z.max (- l) 0 + l) with (Z.max l 0) in X by lia. nia.
    - unfold down, up. destruct (Z.le_gt_cases 0 l).
      + replace (Z.max (- (l + 1)) 0) with 0 by lia. replace (Z.max (l + 1) 0) with (l + 1) by lia. replace (Z.max (- l) 0) with 0 in Y by lia. replace (0 + l + 1) with (l + 1) in Y by lia. nia.
      + replace (Z.max (- l) 0) with (- (l + 1) + 1) in Y by lia. replace (- (l + 1) + 1 + l + 1) with 1 in Y by lia. rewrite Z.pow_add_r in Y by lia. replace (Z.max (- (l + 1)) 0) with (- (l + 1)) by lia. replace (Z.max (l + 1) 0) with 0 by lia. change (2 ^ 1) with 2 in Y. change (2 ^ 0) with 1. nia. }
  rewrite !round_ratio_eq. unfold mantissa_of, exponent_of. rewrite L. set (E := Z.max (log2_floor a b - 52) (-1074)). replace (up (a * c) E) with (up a E * c) by (unfold up; ring). replace (down (b * c) E) with (down b E * c) by (unfold down; ring).
  rewrite rhe_scaled; auto. apply down_pos; auto.
Qed.
Lemma round_pos s p e : binary_round 53 1024 s p e = round_ratio s (Zpos p * 2 ^ Z.max e 0) (2 ^ Z.max (- e) 0).
Proof.
  unfold binary_round. set (E := fexp 53 1024 (Zpos (digits2_pos p) + e)). pose proof (shift_left p e E) as S. destruct (shl_align p e E) as [q f]. destruct S as [-> Q]. set (f := Z.min e E) in *.
  assert (Dq : Zdigits2 (Zpos q) + f = Zdigits2 (Zpos p) + e). { rewrite !digits_pos, Q. rewrite Z.log2_mul_pow2 by lia. lia. }
  rewrite round_aux_ratio by (rewrite Dq; unfold f; change (fexp 53 1024 (Zdigits2 (Zpos p) + e)) with E; lia). rewrite Q.
  assert (W : 0 < 2 ^ (Z.max f 0 + Z.max (- e) 0)) by (apply pow_pos; lia). assert (V : 0 < 2 ^ Z.max (- f) 0) by (apply pow_pos; lia).
  rewrite <- (round_ratio_scaled s (Zpos p * 2 ^ Z.max e 0) (2 ^ Z.max (- e) 0) (2 ^ Z.max (- f) 0)); [|apply Z.mul_pos_pos; [lia|apply pow_max]|apply pow_max|auto].
  rewrite <- (round_ratio_scaled s (Zpos p * 2 ^ (e - f) * 2 ^ Z.max f 0) (2 ^ Z.max (- f) 0) (2 ^ Z.max (- e) 0)); [|apply Z.mul_pos_pos; [apply Z.mul_pos_pos; [lia|apply pow_pos; lia]|apply pow_max]|auto|apply pow_max].
  f_equal; [|ring]. rewrite <- !Z.mul_assoc, <- !Z.pow_add_r by lia. f_equal. f_equal. lia.
Qed.
(** A number is its own nearest one. *)
Lemma number_limit x : a_number binary64 x -> x < (2 ^ 54 - 1) * 2 ^ 970 * 2 ^ 1074.
Proof.
  intros [->|(m & e & ((M0 & M1) & (E0 & E1) & _) & ->)]; [rewrite <- Z.mul_assoc, <- Z.pow_add_r by lia; apply Z.mul_pos_pos; [reflexivity|apply pow_pos; lia]|].
  unfold units. cbn [binary64 prec emin emax] in *. replace (e - -1074) with (1074 + e) by lia.
  apply Z.le_lt_trans with ((2 ^ 53 - 1) * 2 ^ (1074 + 971)).
  - apply Z.le_trans with ((2 ^ 53 - 1) * 2 ^ (1074 + e)); [apply Z.mul_le_mono_nonneg_r; [apply Z.lt_le_incl, pow_pos; lia|lia]|]. apply Z.mul_le_mono_nonneg_l; [lia|]. apply Z.pow_le_mono_r; lia.
  - rewrite <- (Z.mul_assoc (2 ^ 54 - 1)), <- (Z.pow_add_r 2 970 1074) by lia. replace (1074 + 971) with (1 + (970 + 1074)) by lia. rewrite (Z.pow_add_r 2 1), Z.mul_assoc by lia. apply Z.mul_lt_mono_pos_r; [apply pow_pos; lia|]. reflexivity.
Qed.
Lemma exact_ratio s a b x : 0 < a -> 0 < b -> a_number binary64 x -> a * 2 ^ 1074 = b * x ->
  exists m e, round_ratio s a b = S754_finite s m e /\ representable binary64 (Zpos m) e /\ units binary64 (Zpos m) e = x.
Proof.
  intros A B N E. assert (W : 0 < 2 ^ 1074) by (apply pow_pos; lia). assert (D : distance binary64 a b x = 0) by (unfold distance; change (- emin binary64) with 1074; rewrite E, Z.sub_diag; reflexivity).
  pose proof (round_nearest s a b A B) as R. inversion R as [G Eq|G Z0 Eq|m e G Re Nx Ev Eq].
  - exfalso. unfold too_great in G. change (prec binary64 + 1) with 54 in G. change (emax binary64 - 1) with 970 in G. pose proof (number_limit x N) as X. apply (Z.mul_lt_mono_pos_l b) in X; [|auto]. rewrite <- E in X.
    set (w := 2 ^ 1074) in *. clearbody w. set (c := (2 ^ 54 - 1) * 2 ^ 970) in *. clearbody c. nia.
  - exfalso. specialize (Z0 x N). rewrite D in Z0. unfold distance in Z0. change (- emin binary64) with 1074 in Z0. rewrite Z.mul_0_r, Z.sub_0_r in Z0. set (w := 2 ^ 1074) in *. clearbody w. nia.
  - exists m, e. split; auto. split; auto. specialize (Nx x N). rewrite D in Nx. unfold distance in Nx. change (- emin binary64) with 1074 in Nx. rewrite E in Nx. set (y := units binary64 (Zpos m) e) in *. clearbody y. nia.
Qed.
Lemma small_number c e : 0 <= c < 2 ^ 53 -> -1074 <= e <= 971 -> a_number binary64 (c * 2 ^ (1074 + e)).
Proof.
  intros C E. destruct (Z.eq_dec c 0) as [->|Z0]; [left; ring|right]. destruct (Z.log2_spec c ltac:(lia)) as [L1 L2]. assert (G : 0 <= Z.log2 c < 53) by (split; [apply Z.log2_nonneg|apply Z.log2_lt_pow2; lia]). set (g := Z.log2 c) in *.
  set (k := Z.min (52 - g) (1074 + e)). assert (K : 0 <= k) by lia. exists (c * 2 ^ k), (e - k). split.
  - split; [|split; [cbn [binary64 emin emax]; lia|]]; cbn [binary64 prec emin].
    + split; [apply Z.mul_pos_pos; [lia|apply pow_pos; lia]|]. apply Z.lt_le_trans with (2 ^ Z.succ g * 2 ^ k); [apply Z.mul_lt_mono_pos_r; [apply pow_pos; lia|auto]|]. rewrite <- Z.pow_add_r by lia. apply Z.pow_le_mono_r; lia.
    + destruct (Z.le_gt_cases (52 - g) (1074 + e)); [left|right; lia]. apply Z.le_trans with (2 ^ g * 2 ^ k); [rewrite <- Z.pow_add_r by lia; apply Z.pow_le_mono_r; lia|]. apply Z.mul_le_mono_nonneg_r; [apply Z.lt_le_incl, pow_pos; lia|auto].
  - unfold units. cbn [binary64 emin]. rewrite <- Z.mul_assoc, <- Z.pow_add_r by lia. f_equal. f_equal. lia.
Qed.

(** ** Operations *)
(** Whole numbers that are doubles. *)
Lemma of_N_exact n : (0 < n)%N -> a_number binary64 (Z.of_N n * 2 ^ 1074) -> exists m e, f64_of_N n = S754_finite false m e /\ representable binary64 (Zpos m) e /\ units binary64 (Zpos m) e = Z.of_N n * 2 ^ 1074.
Proof.
  intros N A. destruct n as [|p]; [lia|]. change (f64_of_N (N.pos p)) with (binary_round 53 1024 false p 0). change (Z.of_N (N.pos p)) with (Zpos p) in *. rewrite round_pos. change (Z.max 0 0) with 0. change (Z.max (- 0) 0) with 0. change (2 ^ 0) with 1. rewrite Z.mul_1_r. apply exact_ratio; auto; lia.
Qed.
Lemma aligned p e f : f <= e -> Zpos (fst (shl_align p e f)) = Zpos p * 2 ^ (e - f).
Proof. intros L. pose proof (shift_left p e f) as S. destruct (shl_align p e f) as [q g]. destruct S as [-> S]. cbn [fst]. rewrite S. f_equal. f_equal. lia. Qed.
(** A difference that is a double. *)
Lemma sub_exact m e n f x : -1074 <= e -> -1074 <= f -> units binary64 (Zpos m) e = x + units binary64 (Zpos n) f -> 0 <= x -> a_number binary64 x ->
  match f64_sub (S754_finite false m e) (S754_finite false n f) with
  | S754_zero false => x = 0
  | S754_finite false p g => 0 < x /\ representable binary64 (Zpos p) g /\ units binary64 (Zpos p) g = x
  | _ => False end.
Proof.
  intros E F Eq X N. unfold f64_sub, SFsub. set (z := Z.min e f). cbn [cond_Zopp]. rewrite !aligned by lia. unfold units in Eq. cbn [binary64 emin] in Eq.
  set (d := Zpos m * 2 ^ (e - z) - Zpos n * 2 ^ (f - z)). assert (D : x = d * 2 ^ (z + 1074)).
  { unfold d. rewrite Z.mul_sub_distr_r, <- !Z.mul_assoc, <- !Z.pow_add_r by lia. replace (e - z + (z + 1074)) with (e - -1074) by lia. replace (f - z + (z + 1074)) with (f - -1074) by lia. lia. }
  assert (W : 0 < 2 ^ (z + 1074)) by (apply pow_pos; lia). destruct d as [|p|p]; [cbn [binary_normalize]; lia| |nia].
  change (binary_normalize 53 1024 (Zpos p) z false) with (binary_round 53 1024 false p z). rewrite round_pos. destruct (exact_ratio false (Zpos p * 2 ^ Z.max z 0) (2 ^ Z.max (- z) 0) x) as (q & g & -> & R & U); auto; [apply Z.mul_pos_pos; [lia|apply pow_max]|apply pow_max| |split; [nia|auto]].
  rewrite D, <- (Z.mul_assoc (Zpos p)), <- Z.pow_add_r by lia. rewrite (Z.mul_comm (2 ^ Z.max (- z) 0)), <- Z.mul_assoc, <- Z.pow_add_r by lia. f_equal. f_equal. lia.
Qed.
(** Products. *)
Lemma mul_nearest m e n f : 2 ^ 52 <= Zpos n -> nearest binary64 false (Zpos m * Zpos n * 2 ^ Z.max (e + f) 0) (2 ^ Z.max (- (e + f)) 0) (f64_mul (S754_finite false m e) (S754_finite false n f)).
Proof.
  intros N. unfold f64_mul, SFmul. cbn [xorb]. change (Zpos m * Zpos n) with (Zpos (m * n)). rewrite round_aux_ratio; [apply round_nearest; [apply Z.mul_pos_pos; [lia|apply pow_max]|apply pow_max]|].
  rewrite fexp_eq, digits_pos. assert (52 <= Z.log2 (Zpos (m * n))) by (apply Z.log2_le_pow2; [lia|]; change (Zpos (m * n)) with (Zpos m * Zpos n); nia). lia.
Qed.
Lemma to_uint_units mx m e : -1074 <= e -> f64_to_uint mx (S754_finite false m e) = N.min (Z.to_N (units binary64 (Zpos m) e / 2 ^ 1074)) mx.
Proof.
  intros E. cbn [f64_to_uint]. f_equal. unfold units. cbn [binary64 emin]. destruct e as [|p|p].
  - change (0 - -1074) with 1074. rewrite Z.div_mul; [reflexivity|]. assert (0 < 2 ^ 1074) by (apply pow_pos; lia). lia.
  - replace (Zpos p - -1074) with (Zpos p + 1074) by lia. rewrite Z.pow_add_r, Z.mul_assoc, Z.div_mul by lia. rewrite Z2N.inj_mul, Z2N.inj_pow by lia. reflexivity.
  - replace (2 ^ 1074) with (2 ^ ((Zneg p - -1074) + Zpos p)) by (f_equal; lia). rewrite Z.pow_add_r by lia. rewrite (Z.mul_comm (2 ^ (Zneg p - -1074)) (2 ^ Zpos p)), Z.div_mul_cancel_r; [|assert (0 < 2 ^ Zpos p) by (apply pow_pos; lia); lia|assert (0 < 2 ^ (Zneg p - -1074)) by (apply pow_pos; lia); lia].
    rewrite Z2N.inj_div by lia. rewrite Z2N.inj_pow by lia. reflexivity.
Qed.

(** ** Durations with fractional seconds *)
Lemma std_parts chk d secs nanos : d_years d = 0%N -> d_months d = 0%N -> f64_to_uint u64_max (d_seconds d) = secs ->
  f64_to_uint u32_max (f64_mul (f64_sub (d_seconds d) (f64_of_N secs)) (f64_of_N nanos_per_sec)) = nanos -> (nanos < 10 ^ 9)%N ->
  let total := (secs + 60 * (d_minutes d + 60 * (d_hours d + 24 * d_days d)))%N in
  to_std_duration chk d = if (total <? 2 ^ 64)%N then Ok (total, nanos) else if chk then Panic else Ok ((total mod 2 ^ 64)%N, nanos).
Proof.
  intros Hy Hm Hs Hn L total. transitivity (bind (u64_wrap chk total) (fun t => Ok (t, nanos))).
  - unfold to_std_duration. rewrite Hy, Hm, Hs. change ((0 <? 0)%N || (0 <? 0)%N) with false. cbv iota zeta. rewrite Hn. unfold total.
    rewrite <- (wrap_add_l chk secs), <- (wrap_mul_l chk 60 (d_minutes d + _)) by lia.
    rewrite <- (wrap_add_l chk (d_minutes d)), <- (wrap_mul_l chk 60 (d_hours d + _)) by lia.
    rewrite <- (wrap_add_l chk (d_hours d)). unfold u64_mul at 1.
    assert (forall t, std_duration_new t nanos = Ok (t, nanos)) as Q by (intros t; unfold std_duration_new; change nanos_per_sec with (10 ^ 9)%N; rewrite (proj2 (N.ltb_lt _ _) L); reflexivity).
    destruct (u64_wrap chk (24 * d_days d)); cbn [bind]; auto.
    destruct (u64_add chk (d_hours d) a); cbn [bind]; auto.
    destruct (u64_mul chk 60 a0); cbn [bind]; auto.
    destruct (u64_add chk (d_minutes d) a1); cbn [bind]; auto.
    destruct (u64_mul chk 60 a2); cbn [bind]; auto. destruct (u64_add chk secs a3); cbn [bind]; auto.
  - rewrite two64_eq. unfold u64_wrap. destruct (total <? two64)%N; auto. destruct chk; auto.
Qed.
Lemma split_seconds m e : representable binary64 (Zpos m) e -> let x := units binary64 (Zpos m) e in let one := 2 ^ 1074 in
  a_number binary64 (x / one * one) /\ a_number binary64 (x mod one) /\ x mod one <= one - 2 ^ 1021.
Proof.
  intros R x one. assert (N : a_number binary64 x) by (right; exists (Zpos m), e; auto). destruct R as ((M0 & M1) & (E0 & E1) & _). cbn [binary64 prec emin emax] in *.
  assert (O : 0 < one) by (apply pow_pos; lia). destruct (Z.le_gt_cases 0 e) as [P|P].
  - assert (X : x = Zpos m * 2 ^ e * one) by (unfold x, units, one; cbn [binary64 emin]; rewrite <- Z.mul_assoc, <- Z.pow_add_r by lia; f_equal; f_equal; lia).
    rewrite X, Z.div_mul, Z.mod_mul, <- X by lia. split; [auto|]. split; [left; auto|]. apply Z.le_0_sub, Z.pow_le_mono_r; lia.
  - set (v := 2 ^ (1074 + e)). assert (V : 0 < v) by (apply pow_pos; lia). set (q := 2 ^ (- e)). assert (Q : 0 < q) by (apply pow_pos; lia).
    assert (Ov : one = q * v) by (unfold one, q, v; rewrite <- Z.pow_add_r by lia; f_equal; lia).
    assert (X : x = Zpos m * v) by (unfold x, units, v; cbn [binary64 emin]; f_equal; f_equal; lia).
    rewrite X, Ov, Z.div_mul_cancel_r, Z.mul_mod_distr_r by lia. rewrite <- Ov. pose proof (Z.mod_pos_bound (Zpos m) q Q) as B. pose proof (Z.mod_le (Zpos m) q ltac:(lia) Q) as L.
    split; [|split].
    + unfold one. change 1074 with (1074 + 0) at 1. apply small_number; [|lia]. split; [apply Z.div_pos; lia|]. apply Z.le_lt_trans with (Zpos m); [|auto]. apply Z.div_le_upper_bound; nia.
    + apply small_number; lia.
    + destruct (Z.le_gt_cases (- e) 53) as [H|H].
      * assert (2 ^ 1021 <= v) by (apply Z.pow_le_mono_r; lia). nia.
      * assert (T : 2 ^ 53 * v <= 2 ^ 1073) by (unfold v; rewrite <- Z.pow_add_r by lia; apply Z.pow_le_mono_r; lia). assert (S : one = 2 ^ 1073 + 2 ^ 1073) by (unfold one; change 1074 with (1 + 1073); rewrite Z.pow_add_r by lia; ring).
        assert (U : 2 ^ 1021 <= 2 ^ 1073) by (apply Z.pow_le_mono_r; lia). set (z := 2 ^ 1073) in *. clearbody z. set (u := 2 ^ 1021) in *. clearbody u. nia.
Qed.
Lemma fraction_nanos p g : representable binary64 (Zpos p) g -> let y := units binary64 (Zpos p) g in let one := 2 ^ 1074 in y <= one - 2 ^ 1021 ->
  exists k, f64_to_uint u32_max (f64_mul (S754_finite false p g) (f64_of_N nanos_per_sec)) = k /\ (k < 10 ^ 9)%N /\ (Z.of_N k - 1) * one < 10 ^ 9 * y < (Z.of_N k + 1) * one.
Proof.
  intros R y one L. assert (E : f64_of_N nanos_per_sec = S754_finite false 8388608000000000 (-23)) by (vm_compute; reflexivity). rewrite E. clear E.
  destruct R as ((P0 & P1) & (G0 & G1) & _). cbn [binary64 prec emin emax] in *.
  pose proof (mul_nearest p g 8388608000000000 (-23) ltac:(vm_compute; discriminate)) as M. set (a := Zpos p * 8388608000000000 * 2 ^ Z.max (g + -23) 0) in *. set (b := 2 ^ Z.max (- (g + -23)) 0) in *.
  assert (B : 0 < b) by apply pow_max. assert (O : 0 < one) by (apply pow_pos; lia). assert (Y0 : 0 < y) by (unfold y, units; apply Z.mul_pos_pos; [lia|apply pow_pos; cbn [binary64 emin]; lia]).
  assert (A : a * one = b * (10 ^ 9 * y)).
  { unfold a, b, y, units, one. cbn [binary64 emin]. change 8388608000000000 with (10 ^ 9 * 2 ^ 23). transitivity (10 ^ 9 * Zpos p * 2 ^ (23 + Z.max (g + -23) 0 + 1074)); [rewrite !Z.pow_add_r by lia; ring|]. transitivity (10 ^ 9 * Zpos p * 2 ^ (Z.max (- (g + -23)) 0 + (g - -1074))); [f_equal; f_equal; lia|rewrite Z.pow_add_r by lia; ring]. }
  clearbody a b. set (w := 2 ^ 1021) in *. assert (W : 0 < w) by (apply pow_pos; lia). assert (Ow : one = 2 ^ 53 * w) by (unfold one, w; rewrite <- Z.pow_add_r by lia; reflexivity).
  assert (NN : forall n, 0 <= n < 2 ^ 53 -> a_number binary64 (n * one)) by (intros n H; unfold one; change 1074 with (1074 + 0); apply small_number; lia).
  assert (NP : a_number binary64 (10 ^ 9 * one - 2 ^ 30 * w)).
  { replace (10 ^ 9 * one - 2 ^ 30 * w) with (8388607999999999 * 2 ^ (1074 + -23)); [apply small_number; lia|]. rewrite Ow. unfold w. change (1074 + -23) with (30 + 1021). rewrite (Z.pow_add_r 2 30 1021) by lia. set (u := 2 ^ 1021). clearbody u. lia. }
  assert (Near : exists z, f64_to_uint u32_max (f64_mul (S754_finite false p g) (S754_finite false 8388608000000000 (-23))) = N.min (Z.to_N (z / one)) u32_max /\ 0 <= z /\ forall c, a_number binary64 c -> Z.abs (10 ^ 9 * y - z) <= Z.abs (10 ^ 9 * y - c)).
  { assert (Di : forall c, distance binary64 a b c = b * Z.abs (10 ^ 9 * y - c)) by (intros c; unfold distance; change (2 ^ - emin binary64) with one; rewrite A, <- Z.mul_sub_distr_l, Z.abs_mul, (Z.abs_eq b) by lia; reflexivity).
    set (r := f64_mul _ _) in *. clearbody r. inversion M as [T Eq|T Z0 Eq|m e T Re Nx Ev Eq].
    - exfalso. unfold too_great in T. change (prec binary64 + 1) with 54 in T. change (emax binary64 - 1) with 970 in T. assert (C : 10 ^ 9 < (2 ^ 54 - 1) * 2 ^ 970) by reflexivity. set (c := (2 ^ 54 - 1) * 2 ^ 970) in *. clearbody c.
      assert (a < b * 10 ^ 9) by (apply (Z.mul_lt_mono_pos_r one); [auto|]; rewrite A; clearbody w; nia). nia.
    - exists 0. split; [reflexivity|]. split; [lia|]. intros c H. specialize (Z0 c H). rewrite !Di in Z0. apply (Z.mul_le_mono_pos_l _ _ b); auto.
    - exists (units binary64 (Zpos m) e). split; [apply to_uint_units; destruct Re as (_ & (Q & _) & _); exact Q|]. split; [unfold units; apply Z.mul_nonneg_nonneg; [lia|apply Z.pow_nonneg; lia]|]. intros c H. specialize (Nx c H). rewrite !Di in Nx. apply (Z.mul_le_mono_pos_l _ _ b); auto. }
  destruct Near as (z & -> & Z0 & Near). clear M A. clearbody y. exists (N.min (Z.to_N (z / one)) u32_max). split; auto.
  assert (Y : 10 ^ 9 * y < 10 ^ 9 * one - 932067 * 1000 * w) by (clearbody w; lia).
  set (n := 10 ^ 9 * y / one). assert (D1 : n * one <= 10 ^ 9 * y < (n + 1) * one) by (pose proof (Z.div_mod (10 ^ 9 * y) one ltac:(lia)); pose proof (Z.mod_pos_bound (10 ^ 9 * y) one O); fold n in H; lia).
  assert (N1 : 0 <= n < 10 ^ 9) by (split; [apply Z.div_pos; lia|apply Z.div_lt_upper_bound; [auto|clearbody w; nia]]). clearbody n.
  pose proof (Near _ (NN n ltac:(lia))) as H1. pose proof (Near _ (NN (n + 1) ltac:(lia))) as H2. pose proof (Near _ NP) as H3. clear Near NN NP. clearbody w. clearbody one.
  assert (Z1 : n * one <= z <= (n + 1) * one) by lia.
  assert (Z2 : z < 10 ^ 9 * one) by lia.
  assert (Z3 : z / one < 10 ^ 9) by (apply Z.div_lt_upper_bound; lia).
  assert (Z4 : n <= z / one) by (apply Z.div_le_lower_bound; lia).
  assert (Z5 : z / one <= n + 1) by (apply Z.lt_succ_r, Z.div_lt_upper_bound; [auto|]; nia).
  assert (K : Z.of_N (N.min (Z.to_N (z / one)) u32_max) = z / one) by (change u32_max with 4294967295%N; lia).
  split; [lia|]. rewrite K. pose proof (Z.div_mod z one ltac:(lia)) as Dz. pose proof (Z.mod_pos_bound z one O) as Mz. destruct (Z.eq_dec (z / one) n) as [-> |]; [nia|]. assert (F : z / one = n + 1) by lia. rewrite F in *. nia.
Qed.
Lemma std_fraction chk d m e : d_years d = 0%N -> d_months d = 0%N -> d_seconds d = S754_finite false m e -> representable binary64 (Zpos m) e ->
  let one := 2 ^ 1074 in let x := units binary64 (Zpos m) e in x < 2 ^ 64 * one ->
  exists k, (k < 10 ^ 9)%N /\ (Z.of_N k - 1) * one < 10 ^ 9 * (x mod one) < (Z.of_N k + 1) * one /\
    let total := (Z.to_N (x / one) + 60 * (d_minutes d + 60 * (d_hours d + 24 * d_days d)))%N in
    to_std_duration chk d = if (total <? 2 ^ 64)%N then Ok (total, k) else if chk then Panic else Ok ((total mod 2 ^ 64)%N, k).
Proof.
  intros Hy Hm Hs R one x Lx. pose proof (split_seconds m e R) as S. cbv zeta in S. fold x one in S. destruct S as (S1 & S2 & S3).
  assert (O : 0 < one) by (apply pow_pos; lia). assert (E : -1074 <= e) by (destruct R as (_ & (Q & _) & _); exact Q).
  assert (X0 : 0 <= x) by (unfold x, units; apply Z.mul_nonneg_nonneg; [lia|apply Z.pow_nonneg; lia]).
  pose proof (Z.div_mod x one ltac:(lia)) as Dx. pose proof (Z.mod_pos_bound x one O) as Mx. assert (Q0 : 0 <= x / one) by (apply Z.div_pos; lia).
  assert (Q1 : x / one < 2 ^ 64) by (apply Z.div_lt_upper_bound; [auto|lia]).
  assert (Se : f64_to_uint u64_max (d_seconds d) = Z.to_N (x / one)) by (rewrite Hs, to_uint_units by auto; fold x one; change u64_max with (2 ^ 64 - 1)%N; apply N.min_l; apply N2Z.inj_le; rewrite Z2N.id by auto; change (Z.of_N (2 ^ 64 - 1)) with (2 ^ 64 - 1); lia).
  assert (Su : match f64_sub (d_seconds d) (f64_of_N (Z.to_N (x / one))) with
    | S754_zero false => x mod one = 0
    | S754_finite false p g => 0 < x mod one /\ representable binary64 (Zpos p) g /\ units binary64 (Zpos p) g = x mod one
    | _ => False end).
  { rewrite Hs. destruct (Z.eq_dec (x / one) 0) as [Z0|Z0].
    - rewrite Z0. change (f64_sub (S754_finite false m e) (f64_of_N (Z.to_N 0))) with (S754_finite false m e). assert (X : x = x mod one) by lia. rewrite <- X. split; [|split; auto]. unfold x, units. apply Z.mul_pos_pos; [lia|apply pow_pos; cbn [binary64 emin]; lia].
    - destruct (of_N_exact (Z.to_N (x / one))) as (n & f & -> & Rn & Un); [lia|rewrite Z2N.id by auto; exact S1|]. rewrite Z2N.id in Un by auto. fold one in Un. apply sub_exact; auto; [destruct Rn as (_ & (Q & _) & _); exact Q| |lia]. rewrite Un. fold x. lia. }
  assert (exists k, f64_to_uint u32_max (f64_mul (f64_sub (d_seconds d) (f64_of_N (Z.to_N (x / one)))) (f64_of_N nanos_per_sec)) = k /\ (k < 10 ^ 9)%N /\ (Z.of_N k - 1) * one < 10 ^ 9 * (x mod one) < (Z.of_N k + 1) * one) as (k & K1 & K2 & K3).
  { destruct (f64_sub _ _) as [[|]|[|]| |[|] p g]; try easy.
    - rewrite Su. exists 0%N. split; [reflexivity|]. split; [reflexivity|]. lia.
    - destruct Su as (Y0 & Rp & Up). rewrite <- Up in *. apply fraction_nanos; auto. }
  exists k. split; auto. split; auto. apply std_parts; auto.
Qed.
(** ** Seconds that are no time of day: not positive, or beyond the whole numbers of 64 bits *)
Lemma nearest_least a b c r : 0 < a -> 0 < b -> 0 < c -> a_number binary64 c -> b * c <= a * 2 ^ 1074 -> nearest binary64 false a b r ->
  r = S754_infinity false \/ exists m e, r = S754_finite false m e /\ representable binary64 (Zpos m) e /\ c <= units binary64 (Zpos m) e.
Proof.
  intros A B C N L R. inversion R as [G Eq|G Z0 Eq|m e G Re Nx Ev Eq]; [auto| |]; [exfalso; specialize (Z0 c N)|right; exists m, e; split; [auto|split; [auto|specialize (Nx c N)]]];
    unfold distance in *; change (- emin binary64) with 1074 in *; set (w := 2 ^ 1074) in *; clearbody w; nia.
Qed.
Lemma big_seconds m e : representable binary64 (Zpos m) e -> 2 ^ 64 * 2 ^ 1074 < units binary64 (Zpos m) e ->
  f64_to_uint u32_max (f64_mul (f64_sub (S754_finite false m e) (f64_of_N u64_max)) (f64_of_N nanos_per_sec)) = u32_max.
Proof.
  intros R X. assert (E : f64_of_N nanos_per_sec = S754_finite false 8388608000000000 (-23)) by (vm_compute; reflexivity). rewrite E. clear E.
  assert (E : f64_of_N u64_max = S754_finite false 4503599627370496 12) by (vm_compute; reflexivity). rewrite E. clear E.
  destruct R as ((P0 & P1) & (G0 & G1) & _). unfold units in X. cbn [binary64 prec emin emax] in *.
  assert (O : 0 < 2 ^ 1074) by (apply pow_pos; lia).
  assert (E : 12 <= e).
  { destruct (Z.le_gt_cases 12 e); auto. exfalso. assert (Zpos m * 2 ^ (e - -1074) < 2 ^ 53 * 2 ^ (11 + 1074)); [|rewrite <- !Z.pow_add_r in * by lia; assert (2 ^ (53 + (11 + 1074)) <= 2 ^ (64 + 1074)) by (apply Z.pow_le_mono_r; lia); lia].
    apply Z.lt_le_trans with (2 ^ 53 * 2 ^ (e - -1074)); [apply Z.mul_lt_mono_pos_r; [apply pow_pos; lia|auto]|]. apply Z.mul_le_mono_nonneg_l; [lia|]. apply Z.pow_le_mono_r; lia. }
  assert (S : f64_sub (S754_finite false m e) (S754_finite false 4503599627370496 12) = S754_infinity false \/ exists p g, f64_sub (S754_finite false m e) (S754_finite false 4503599627370496 12) = S754_finite false p g /\ representable binary64 (Zpos p) g /\ 2 ^ 12 * 2 ^ 1074 <= units binary64 (Zpos p) g).
  { unfold f64_sub, SFsub. rewrite Z.min_r by lia. cbn [cond_Zopp]. rewrite !aligned by lia. set (d := Zpos m * 2 ^ (e - 12) - 4503599627370496 * 2 ^ (12 - 12)).
    assert (D : 0 < d).
    { unfold d. change (4503599627370496 * 2 ^ (12 - 12)) with (2 ^ 52). replace (e - -1074) with ((e - 12) + (12 + 1074)) in X by lia. rewrite !Z.pow_add_r, Z.mul_assoc in X by lia. change (2 ^ 64) with (2 ^ 52 * 2 ^ 12) in X. rewrite <- Z.mul_assoc in X. apply Z.lt_0_sub. apply Z.mul_lt_mono_pos_r in X; [auto|]. apply Z.mul_pos_pos; [lia|auto]. }
    destruct d as [|p|p]; try lia. change (binary_normalize 53 1024 (Zpos p) 12 false) with (binary_round 53 1024 false p 12). rewrite round_pos. change (Z.max (- (12)) 0) with 0. change (Z.max 12 0) with 12.
    apply (nearest_least (Zpos p * 2 ^ 12) (2 ^ 0)); [lia|lia|lia| | |apply round_nearest; lia].
    - change 1074 with (1074 + 0). apply small_number; lia.
    - change (2 ^ 0) with 1. set (w := 2 ^ 1074) in *. clearbody w. nia. }
  destruct S as [->|(p & g & -> & R & U)]; [reflexivity|]. destruct R as ((Q0 & Q1) & (F0 & F1) & _). cbn [binary64 prec emin emax] in *.
  assert (M : f64_mul (S754_finite false p g) (S754_finite false 8388608000000000 (-23)) = S754_infinity false \/ exists q h, f64_mul (S754_finite false p g) (S754_finite false 8388608000000000 (-23)) = S754_finite false q h /\ representable binary64 (Zpos q) h /\ 2 ^ 33 * 2 ^ 1074 <= units binary64 (Zpos q) h).
  { apply (nearest_least (Zpos p * 8388608000000000 * 2 ^ Z.max (g + -23) 0) (2 ^ Z.max (- (g + -23)) 0)); [apply Z.mul_pos_pos; [lia|apply pow_max]|apply pow_max|lia|change 1074 with (1074 + 0); apply small_number; lia| |apply mul_nearest; vm_compute; discriminate].
    replace (Zpos p * 8388608000000000 * 2 ^ Z.max (g + -23) 0 * 2 ^ 1074) with (2 ^ Z.max (- (g + -23)) 0 * (10 ^ 9 * units binary64 (Zpos p) g)).
    - apply Z.mul_le_mono_nonneg_l; [apply Z.lt_le_incl, pow_max|]. set (w := 2 ^ 1074) in *. clearbody w. lia.
    - unfold units. cbn [binary64 emin]. change 8388608000000000 with (10 ^ 9 * 2 ^ 23). transitivity (10 ^ 9 * Zpos p * 2 ^ (Z.max (- (g + -23)) 0 + (g - -1074))); [rewrite (Z.pow_add_r 2 (Z.max _ _)) by lia; ring|]. transitivity (10 ^ 9 * Zpos p * 2 ^ (23 + Z.max (g + -23) 0 + 1074)); [f_equal; f_equal; lia|rewrite !Z.pow_add_r by lia; ring]. }
  destruct M as [->|(q & h & -> & R & V)]; [reflexivity|]. rewrite to_uint_units by (destruct R as (_ & (Q & _) & _); exact Q). apply N.min_r. set (z := units binary64 (Zpos q) h) in *. clearbody z.
  assert (2 ^ 33 <= z / 2 ^ 1074) by (apply Z.div_le_lower_bound; [auto|]; set (w := 2 ^ 1074) in *; clearbody w; lia). change u32_max with 4294967295%N. set (v := z / 2 ^ 1074) in *. clearbody v. lia.
Qed.
(** The seconds and nanoseconds counted for the field. *)
Lemma std_rest chk d secs nanos : d_years d = 0%N -> d_months d = 0%N -> f64_to_uint u64_max (d_seconds d) = secs ->
  f64_to_uint u32_max (f64_mul (f64_sub (d_seconds d) (f64_of_N secs)) (f64_of_N nanos_per_sec)) = nanos ->
  to_std_duration chk d = bind (u64_wrap chk (secs + 60 * (d_minutes d + 60 * (d_hours d + 24 * d_days d)))%N) (fun t => std_duration_new t nanos).
Proof.
  intros Hy Hm Hs Hn. unfold to_std_duration. rewrite Hy, Hm, Hs. change ((0 <? 0)%N || (0 <? 0)%N) with false. cbv iota zeta. rewrite Hn.
  rewrite <- (wrap_add_l chk secs), <- (wrap_mul_l chk 60 (d_minutes d + _)) by lia.
  rewrite <- (wrap_add_l chk (d_minutes d)), <- (wrap_mul_l chk 60 (d_hours d + _)) by lia.
  rewrite <- (wrap_add_l chk (d_hours d)). unfold u64_mul at 1.
  destruct (u64_wrap chk (24 * d_days d)); cbn [bind]; auto.
  destruct (u64_add chk (d_hours d) a); cbn [bind]; auto.
  destruct (u64_mul chk 60 a0); cbn [bind]; auto.
  destruct (u64_add chk (d_minutes d) a1); cbn [bind]; auto.
  destruct (u64_mul chk 60 a2); cbn [bind]; auto.
Qed.
Lemma negative_uint mx m e l : f64_to_uint mx (binary_round_aux 53 1024 true m e l) = 0%N.
Proof.
  unfold binary_round_aux. destruct (shr_fexp 53 1024 m e l) as [a f]. destruct (shr_fexp 53 1024 _ f loc_Exact) as [b g]. destruct (shr_m b); try reflexivity. destruct (g <=? 1024 - 53); reflexivity.
Qed.
Lemma std_none chk d : d_years d = 0%N -> d_months d = 0%N -> (forall m e, d_seconds d <> S754_finite false m e) -> d_seconds d <> S754_infinity false ->
  let rest := (60 * (d_minutes d + 60 * (d_hours d + 24 * d_days d)))%N in
  to_std_duration chk d = if (rest <? 2 ^ 64)%N then Ok (rest, 0%N) else if chk then Panic else Ok ((rest mod 2 ^ 64)%N, 0%N).
Proof.
  intros Hy Hm F I rest. change rest with (0 + rest)%N. apply std_parts; auto; [| |reflexivity]; destruct (d_seconds d) as [[|]|[|]| |[|] m e]; try reflexivity; try (exfalso; eapply F; reflexivity); try (exfalso; apply I; reflexivity).
  change (f64_of_N nanos_per_sec) with (binary_round 53 1024 false 1000000000 0). change (f64_sub (S754_finite true m e) (f64_of_N 0)) with (S754_finite true m e).
  assert (E : binary_round 53 1024 false 1000000000 0 = S754_finite false 8388608000000000 (-23)) by (vm_compute; reflexivity). rewrite E. apply negative_uint.
Qed.
Lemma std_max chk d : d_years d = 0%N -> d_months d = 0%N -> (exists m e, d_seconds d = S754_finite false m e /\ representable binary64 (Zpos m) e /\ units binary64 (Zpos m) e = 2 ^ 64 * 2 ^ 1074) ->
  let total := (2 ^ 64 - 1 + 60 * (d_minutes d + 60 * (d_hours d + 24 * d_days d)))%N in
  to_std_duration chk d = if (total <? 2 ^ 64)%N then Ok (total, 0%N) else if chk then Panic else Ok ((total mod 2 ^ 64)%N, 0%N).
Proof.
  intros Hy Hm (m & e & Hs & R & X) total. assert (O : 0 < 2 ^ 1074) by (apply pow_pos; lia). assert (E : -1074 <= e) by (destruct R as (_ & (Q & _) & _); exact Q).
  apply (std_parts chk d (2 ^ 64 - 1) 0); auto; try reflexivity.
  - rewrite Hs, to_uint_units, X, Z.div_mul by (auto; lia). reflexivity.
  - rewrite Hs. change (2 ^ 64 - 1)%N with u64_max. assert (F : f64_of_N u64_max = S754_finite false 4503599627370496 12) by (vm_compute; reflexivity). rewrite F.
    pose proof (sub_exact m e 4503599627370496 12 0 E ltac:(lia)) as S. assert (G : units binary64 4503599627370496 12 = 2 ^ 64 * 2 ^ 1074) by (unfold units; cbn [binary64 emin]; change (12 - -1074) with (12 + 1074); rewrite Z.pow_add_r, Z.mul_assoc by lia; reflexivity).
    specialize (S ltac:(rewrite G; lia) ltac:(lia) ltac:(left; reflexivity)). destruct (f64_sub _ _) as [[|]|[|]| |[|] p g]; easy.
Qed.
Lemma std_beyond chk d : d_years d = 0%N -> d_months d = 0%N ->
  d_seconds d = S754_infinity false \/ (exists m e, d_seconds d = S754_finite false m e /\ representable binary64 (Zpos m) e /\ 2 ^ 64 * 2 ^ 1074 < units binary64 (Zpos m) e) ->
  let rest := (60 * (d_minutes d + 60 * (d_hours d + 24 * d_days d)))%N in
  to_std_duration chk d = if chk then Panic else if ((2 ^ 64 - 1 + rest) mod 2 ^ 64 + 4 <? 2 ^ 64)%N then Ok (((2 ^ 64 - 1 + rest) mod 2 ^ 64 + 4)%N, 294967295%N) else Panic.
Proof.
  intros Hy Hm Hs rest. rewrite (std_rest chk d (2 ^ 64 - 1) u32_max); auto.
  - fold rest. change (2 ^ 64)%N with two64. unfold u64_wrap, std_duration_new. change (u32_max <? nanos_per_sec)%N with false. change (u32_max / nanos_per_sec)%N with 4%N. change (u32_max mod nanos_per_sec)%N with 294967295%N. cbv iota zeta.
    destruct (N.ltb_spec (two64 - 1 + rest) two64) as [L|L]; cbn [bind].
    + rewrite (N.mod_small (two64 - 1 + rest)) by auto. destruct (N.ltb_spec (two64 - 1 + rest + 4) two64) as [M|M]; [lia|]. destruct chk; reflexivity.
    + destruct chk; cbn [bind]; [reflexivity|]. fold (u64_wrap false). reflexivity.
  - destruct Hs as [->|(m & e & -> & R & X)]; [reflexivity|]. rewrite to_uint_units by (destruct R as (_ & (Q & _) & _); exact Q). change (2 ^ 64 - 1)%N with u64_max. apply N.min_r. assert (2 ^ 64 <= units binary64 (Zpos m) e / 2 ^ 1074) by (apply Z.div_le_lower_bound; [apply pow_pos; lia|]; rewrite Z.mul_comm; lia).
    change u64_max with (2 ^ 64 - 1)%N. set (v := units binary64 (Zpos m) e / 2 ^ 1074) in *. clearbody v. apply N2Z.inj_le. rewrite Z2N.id by lia. change (Z.of_N (2 ^ 64 - 1)) with (2 ^ 64 - 1). lia.
  - destruct Hs as [->|(m & e & -> & R & X)]; [vm_compute; reflexivity|]. apply big_seconds; auto.
Qed.
