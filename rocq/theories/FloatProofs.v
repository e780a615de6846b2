(** Proofs about f64 as text. *)
From Coq Require Import Arith NArith ZArith Bool Ascii String List Lia.
From Coq Require Import Floats.SpecFloat.
From Verif Require Import Str StrFacts SpecLex TzProofs Dur DurProofs Float SpecDouble.
Import ListNotations.
Local Open Scope string_scope.
Local Open Scope list_scope.
Local Open Scope Z_scope.
Arguments lit : simpl never.

(** ** Rounding *)
Definition up (a e : Z) : Z := a * 2 ^ Z.max (- e) 0.
Definition down (b e : Z) : Z := b * 2 ^ Z.max e 0.
Lemma pow_pos e : 0 <= e -> 0 < 2 ^ e.
Proof. intros. apply Z.pow_pos_nonneg; lia. Qed.
Lemma pow_max e : 0 < 2 ^ Z.max e 0.
Proof. apply pow_pos. lia. Qed.
Lemma up_pos a e : 0 < a -> 0 < up a e.
Proof. unfold up. pose proof (pow_max (- e)). nia. Qed.
Lemma down_pos a e : 0 < a -> 0 < down a e.
Proof. unfold down. pose proof (pow_max e). nia. Qed.
(** All of it in one scale. *)
Lemma scaled a b e n : 0 <= n -> 0 <= n + e -> exists k, 0 < k /\ a * 2 ^ n = up a e * k /\ b * 2 ^ (n + e) = down b e * k.
Proof.
  intros H H'. unfold up, down. destruct (Z.le_ge_cases 0 e).
  - exists (2 ^ n). rewrite (Z.max_r (- e)), (Z.max_l e) by lia. split; [apply pow_pos; auto|]. rewrite Z.pow_add_r by lia. split; ring.
  - exists (2 ^ (n + e)). rewrite (Z.max_l (- e)), (Z.max_r e) by lia. split; [apply pow_pos; auto|]. split; [rewrite <- Z.mul_assoc, <- Z.pow_add_r by lia; f_equal; f_equal; lia|ring].
Qed.

Lemma log2_floor_ok a b n : 0 < a -> 0 < b -> 0 <= n -> 0 <= n + log2_floor a b -> b * 2 ^ (n + log2_floor a b) <= a * 2 ^ n < b * 2 ^ (n + log2_floor a b + 1).
Proof.
  intros A B. pose proof (Z.log2_spec a A) as [A1 A2]. pose proof (Z.log2_spec b B) as [B1 B2]. pose proof (Z.log2_nonneg a). pose proof (Z.log2_nonneg b).
  unfold log2_floor. set (la := Z.log2 a) in *. set (lb := Z.log2 b) in *. fold (up a (la - lb)). fold (down b (la - lb)).
  destruct (down b (la - lb) <=? up a (la - lb)) eqn:E; intros N M.
  - apply Z.leb_le in E. destruct (scaled a b (la - lb) n) as (k & K & E1 & E2); [lia|lia|]. split; [rewrite E1, E2; nia|].
    assert (X : 2 ^ lb * (a * 2 ^ n) < 2 ^ lb * (b * 2 ^ (n + (la - lb) + 1))); [|apply Z.mul_lt_mono_pos_l in X; auto; apply pow_pos; lia].
    apply Z.lt_le_trans with (2 ^ lb * (2 ^ Z.succ la * 2 ^ n)); [apply Z.mul_lt_mono_pos_l; [apply pow_pos; lia|]; apply Z.mul_lt_mono_pos_r; auto; apply pow_pos; lia|].
    apply Z.le_trans with (2 ^ lb * (2 ^ lb * 2 ^ (n + (la - lb) + 1))).
    + apply Z.mul_le_mono_nonneg_l; [apply Z.lt_le_incl, pow_pos; lia|]. rewrite <- !Z.pow_add_r by lia. apply Z.pow_le_mono_r; lia.
    + apply Z.mul_le_mono_nonneg_l; [apply Z.lt_le_incl, pow_pos; lia|]. apply Z.mul_le_mono_nonneg_r; auto. apply Z.lt_le_incl, pow_pos; lia.
  - apply Z.leb_gt in E. destruct (scaled a b (la - lb) n) as (k & K & E1 & E2); [lia|lia|]. replace (n + (la - lb - 1) + 1) with (n + (la - lb)) by lia. split; [|rewrite E1, E2; nia].
    assert (X : 2 ^ Z.succ lb * (b * 2 ^ (n + (la - lb - 1))) <= 2 ^ Z.succ lb * (a * 2 ^ n)); [|apply Z.mul_le_mono_pos_l in X; auto; apply pow_pos; lia].
    apply Z.le_trans with (2 ^ Z.succ lb * (2 ^ Z.succ lb * 2 ^ (n + (la - lb - 1)))).
    + apply Z.mul_le_mono_nonneg_l; [apply Z.lt_le_incl, pow_pos; lia|]. apply Z.mul_le_mono_nonneg_r; [apply Z.lt_le_incl, pow_pos; lia|]. lia.
    + apply Z.le_trans with (2 ^ Z.succ lb * (2 ^ la * 2 ^ n)); [|apply Z.mul_le_mono_nonneg_l; [apply Z.lt_le_incl, pow_pos; lia|]; apply Z.mul_le_mono_nonneg_r; auto; apply Z.lt_le_incl, pow_pos; lia].
      apply Z.mul_le_mono_nonneg_l; [apply Z.lt_le_incl, pow_pos; lia|]. rewrite <- !Z.pow_add_r by lia. apply Z.pow_le_mono_r; lia.
Qed.
Lemma log2_floor_unique a b l : 0 < a -> 0 < b -> down b l <= up a l -> up a (l + 1) < down b (l + 1) -> log2_floor a b = l.
Proof.
  intros A B H1 H2. set (L := log2_floor a b). set (n := Z.max (- l) 0 + Z.max (- L) 0 + 1).
  destruct (log2_floor_ok a b n A B) as [G1 G2]; [lia|lia|]. fold L in G1, G2.
  destruct (scaled a b l n) as (k & K & E1 & E2); [lia|lia|]. destruct (scaled a b (l + 1) n) as (k' & K' & E1' & E2'); [lia|lia|].
  assert (X : b * 2 ^ (n + l) <= a * 2 ^ n) by (rewrite E1, E2; nia). assert (Y : a * 2 ^ n < b * 2 ^ (n + (l + 1))) by (rewrite E1', E2'; nia).
  assert (P : forall x y, 0 <= x -> 0 <= y -> b * 2 ^ x < b * 2 ^ y -> x < y).
  { intros x y Hx Hy Q. apply Z.mul_lt_mono_pos_l in Q; auto. apply Z.pow_lt_mono_r_iff in Q; lia. }
  assert (Z1 : n + L < n + (l + 1)) by (apply P; lia). assert (Z2 : n + l < n + L + 1) by (apply P; lia). lia.
Qed.

Lemma rhe_ok a b : 0 < b -> 2 * Z.abs (a - round_half_even a b * b) <= b /\ (2 * Z.abs (a - round_half_even a b * b) = b -> Z.even (round_half_even a b) = true).
Proof.
  intros B. unfold round_half_even. pose proof (Z.div_mod a b ltac:(lia)) as E. pose proof (Z.mod_pos_bound a b B) as M. set (q := a / b) in *. set (r := a mod b) in *. clearbody q r.
  destruct (Z.compare_spec (2 * r) b) as [C|C|C].
  - destruct (Z.even q) eqn:Q; [split; [nia|auto]|]. split; [nia|]. intros _. rewrite Z.add_1_r, Z.even_succ, <- Z.negb_even, Q. auto.
  - split; nia.
  - split; nia.
Qed.
Lemma rhe_unique a b m : 0 < b -> 2 * Z.abs (a - m * b) <= b -> (2 * Z.abs (a - m * b) = b -> Z.even m = true) -> round_half_even a b = m.
Proof.
  intros B H1 H2. destruct (rhe_ok a b B) as [G1 G2]. set (m' := round_half_even a b) in *. clearbody m'.
  assert (D : m' = m \/ m' = m + 1 \/ m' = m - 1) by nia. destruct D as [D|D]; auto. exfalso.
  assert (X : Z.even m = true) by (apply H2; nia). assert (Y : Z.even m' = true) by (apply G2; nia).
  destruct D as [-> | ->]; [rewrite Z.add_1_r, Z.even_succ, <- Z.negb_even, X in Y|rewrite Z.sub_1_r, Z.even_pred, <- Z.negb_even, X in Y]; discriminate.
Qed.
Lemma rhe_nearest a b j : 0 < b -> Z.abs (a - round_half_even a b * b) <= Z.abs (a - j * b) /\
  (Z.abs (a - j * b) = Z.abs (a - round_half_even a b * b) -> j = round_half_even a b \/ Z.even (round_half_even a b) = true).
Proof.
  intros B. destruct (rhe_ok a b B) as [G1 G2]. set (m := round_half_even a b) in *. clearbody m. destruct (Z.eq_dec j m) as [->|N]; [split; [lia|auto]|].
  assert (X : b <= Z.abs (a - m * b) + Z.abs (a - j * b)) by nia. split; [lia|]. intros E. right. apply G2. lia.
Qed.
Lemma rhe_bounds a b lo hi : 0 < b -> lo * b <= a -> a <= hi * b -> lo <= round_half_even a b <= hi.
Proof. intros B L H. destruct (rhe_ok a b B) as [G _]. set (m := round_half_even a b) in *. clearbody m. split; nia. Qed.

(** The double nearest to a quotient *)
Definition exponent_of (a b : Z) : Z := Z.max (log2_floor a b - 52) (-1074).
Definition mantissa_of (a b : Z) : Z := round_half_even (up a (exponent_of a b)) (down b (exponent_of a b)).
Lemma number_shape x e : a_number binary64 x -> -1074 <= e -> (exists j, x = j * 2 ^ (1074 + e)) \/ (x < 2 ^ 52 * 2 ^ (1074 + e) /\ -1074 < e).
Proof.
  intros [->|(m & e' & ([M1 M2] & [E1 _] & _) & ->)] E; [left; exists 0; ring|]. unfold units. cbn [binary64 prec emin] in *. replace (e' - -1074) with (1074 + e') by lia.
  destruct (Z.le_gt_cases e e') as [L|L].
  - left. exists (m * 2 ^ (e' - e)). rewrite <- Z.mul_assoc, <- Z.pow_add_r by lia. f_equal. f_equal. lia.
  - right. split; [|lia]. apply Z.lt_le_trans with (2 ^ 53 * 2 ^ (1074 + e')); [apply Z.mul_lt_mono_pos_r; [apply pow_pos; lia|auto]|]. rewrite <- !Z.pow_add_r by lia. apply Z.pow_le_mono_r; lia.
Qed.
Lemma distance_scaled a b e k m : a * 2 ^ 1074 = up a e * k -> b * 2 ^ (1074 + e) = down b e * k -> 0 < k ->
  distance binary64 a b (m * 2 ^ (1074 + e)) = Z.abs (up a e - m * down b e) * k.
Proof.
  intros E1 E2 K. unfold distance. change (- emin binary64) with 1074. rewrite E1. replace (b * (m * 2 ^ (1074 + e))) with (m * (b * 2 ^ (1074 + e))) by ring. rewrite E2.
  replace (up a e * k - m * (down b e * k)) with ((up a e - m * down b e) * k) by ring. rewrite Z.abs_mul, (Z.abs_eq k) by lia. auto.
Qed.
Lemma exponent_scale a b : 0 < a -> 0 < b -> let e := exponent_of a b in
  -1074 <= e /\ up a e < 2 ^ 53 * down b e /\ (-1074 < e -> 2 ^ 52 * down b e <= up a e).
Proof.
  intros A B e. assert (E : -1074 <= e) by (unfold e, exponent_of; lia). split; auto. set (l := log2_floor a b).
  set (n := 1074 + Z.max (- l) 0). destruct (log2_floor_ok a b n A B) as [G1 G2]; [lia|lia|]. fold l in G1, G2.
  destruct (scaled a b e n) as (k & K & E1 & E2); [lia|lia|]. split.
  - assert (X : up a e * k < 2 ^ 53 * down b e * k); [|nia]. rewrite <- E1, <- Z.mul_assoc, <- E2. eapply Z.lt_le_trans; [exact G2|].
    rewrite (Z.mul_comm (2 ^ 53)), <- Z.mul_assoc. apply Z.mul_le_mono_nonneg_l; [lia|]. rewrite <- Z.pow_add_r by lia. apply Z.pow_le_mono_r; [lia|]. unfold e, exponent_of. fold l. lia.
  - intros P. assert (X : 2 ^ 52 * down b e * k <= up a e * k); [|nia]. rewrite <- E1, <- Z.mul_assoc, <- E2. eapply Z.le_trans; [|exact G1].
    rewrite (Z.mul_comm (2 ^ 52)), <- Z.mul_assoc. apply Z.mul_le_mono_nonneg_l; [lia|]. rewrite <- Z.pow_add_r by lia. apply Z.pow_le_mono_r; [lia|]. unfold e, exponent_of in *. fold l in P |- *. lia.
Qed.
Lemma mantissa_nearest a b : 0 < a -> 0 < b -> let e := exponent_of a b in let m := mantissa_of a b in
  0 <= m <= 2 ^ 53 /\ (-1074 < e -> 2 ^ 52 <= m) /\
  forall x, a_number binary64 x -> distance binary64 a b (m * 2 ^ (1074 + e)) <= distance binary64 a b x /\
    (distance binary64 a b x = distance binary64 a b (m * 2 ^ (1074 + e)) -> x = m * 2 ^ (1074 + e) \/ Z.even m = true).
Proof.
  intros A B e m. destruct (exponent_scale a b A B) as (E & Hi & Lo). fold e in E, Hi, Lo. pose proof (up_pos a e A) as PA. pose proof (down_pos b e B) as PB.
  assert (Mb : 0 <= m <= 2 ^ 53) by (apply rhe_bounds; fold e; [auto|lia|lia]).
  assert (Ml : -1074 < e -> 2 ^ 52 <= m) by (intros P; apply (rhe_bounds (up a e) (down b e) (2 ^ 52) (2 ^ 53)); auto; lia).
  split; auto. split; auto. intros x X. destruct (scaled a b e 1074) as (k & K & E1 & E2); [lia|lia|]. rewrite (distance_scaled a b e k m E1 E2 K).
  destruct (number_shape x e X E) as [(j & ->)|[Lx Pe]].
  - rewrite (distance_scaled a b e k j E1 E2 K). destruct (rhe_nearest (up a e) (down b e) j PB) as [N1 N2]. fold m in N1, N2. unfold mantissa_of in m. fold e in m. fold m in N1, N2. split; [nia|]. intros Q. destruct N2 as [->|N2]; auto. nia.
  - specialize (Lo Pe). destruct (rhe_nearest (up a e) (down b e) (2 ^ 52) PB) as [N1 _]. unfold mantissa_of in m. fold e in m. fold m in N1.
    assert (Y : Z.abs (up a e - 2 ^ 52 * down b e) * k < distance binary64 a b x).
    { rewrite Z.abs_eq by lia. unfold distance. change (- emin binary64) with 1074. rewrite E1. assert (b * x < 2 ^ 52 * (down b e * k)); [|lia]. rewrite <- E2. nia. }
    split; [nia|]. intros Q. exfalso. nia.
Qed.

Lemma round_ratio_eq neg a b : round_ratio neg a b =
  let '(m, e) := if mantissa_of a b =? 2 ^ 53 then (2 ^ 52, exponent_of a b + 1) else (mantissa_of a b, exponent_of a b) in
  match m with Zpos p => if 971 <? e then S754_infinity neg else S754_finite neg p e | _ => S754_zero neg end.
Proof. reflexivity. Qed.
Definition threshold : Z := (2 ^ 54 - 1) * 2 ^ 970.
(** What is too great, in terms of the rounded mantissa. *)
Lemma great_iff a b : 0 < a -> 0 < b -> (too_great binary64 a b <-> 971 < exponent_of a b \/ exponent_of a b = 971 /\ mantissa_of a b = 2 ^ 53).
Proof.
  intros A B. destruct (exponent_scale a b A B) as (E & Hi & Lo). set (e := exponent_of a b) in *. pose proof (up_pos a e A) as PA. pose proof (down_pos b e B) as PB.
  unfold too_great. cbn [binary64 prec emax]. change (53 + 1) with 54. change (971 - 1) with 970. fold threshold.
  destruct (Z.lt_trichotomy e 971) as [C|[C|C]].
  - split; [|lia]. intros T. exfalso. destruct (scaled a b e 1074) as (k & K & E1 & E2); [lia|lia|].
    assert (X : a * 2 ^ 1074 < 2 ^ 53 * (b * 2 ^ (1074 + e))) by (rewrite E1, E2; nia).
    assert (Y : 2 ^ 53 * (b * 2 ^ (1074 + e)) <= b * 2 ^ 1023 * 2 ^ 1074).
    { rewrite (Z.mul_comm (2 ^ 53)), <- !Z.mul_assoc. apply Z.mul_le_mono_nonneg_l; [lia|]. rewrite <- !Z.pow_add_r by lia. apply Z.pow_le_mono_r; lia. }
    assert (W : b * 2 ^ 1023 <= b * threshold) by (apply Z.mul_le_mono_nonneg_l; [lia|]; apply Z.leb_le; vm_compute; reflexivity).
    assert (0 < 2 ^ 1074) by (apply pow_pos; lia). nia.
  - rewrite C in *. assert (Ua : up a 971 = a) by (unfold up; rewrite Z.max_r by lia; rewrite Z.pow_0_r; lia). assert (Db : down b 971 = b * 2 ^ 971) by reflexivity. rewrite Ua, Db in *.
    assert (T2 : 2 * threshold = (2 ^ 54 - 1) * 2 ^ 971) by (vm_compute; reflexivity). assert (P : 0 < 2 ^ 971) by (apply pow_pos; lia).
    assert (M : mantissa_of a b = round_half_even a (b * 2 ^ 971)) by (unfold mantissa_of; fold e; rewrite C, Ua, Db; auto). rewrite M.
    destruct (rhe_ok a (b * 2 ^ 971) PB) as [G1 G2]. set (m := round_half_even a (b * 2 ^ 971)) in *. set (D := b * 2 ^ 971) in *.
    assert (TD : 2 * (b * threshold) = (2 ^ 54 - 1) * D) by (unfold D; transitivity (b * (2 * threshold)); [ring|rewrite T2; ring]). split.
    + intros T. right. split; auto. apply rhe_unique; [auto| |intros _; reflexivity]. change (2 ^ 53) with 9007199254740992 in *. change (2 ^ 54) with 18014398509481984 in *. lia.
    + intros [X|[_ X]]; [lia|]. rewrite X in G1. change (2 ^ 53) with 9007199254740992 in *. change (2 ^ 54) with 18014398509481984 in *. lia.
  - split; [auto|]. intros _. specialize (Lo ltac:(lia)). assert (Ua : up a e = a) by (unfold up; rewrite Z.max_r by lia; rewrite Z.pow_0_r; lia). assert (Db : down b e = b * 2 ^ e) by (unfold down; rewrite Z.max_l by lia; auto).
    rewrite Ua, Db in Lo. eapply Z.le_trans; [|exact Lo]. rewrite (Z.mul_comm (2 ^ 52)), <- Z.mul_assoc. apply Z.mul_le_mono_nonneg_l; [lia|]. rewrite <- Z.pow_add_r by lia.
    apply Z.le_trans with (2 ^ (972 + 52)); [apply Z.leb_le; vm_compute; reflexivity|]. apply Z.pow_le_mono_r; lia.
Qed.
Lemma round_nearest neg a b : 0 < a -> 0 < b -> nearest binary64 neg a b (round_ratio neg a b).
Proof.
  intros A B. rewrite round_ratio_eq. destruct (mantissa_nearest a b A B) as (Mb & Ml & Nx). destruct (exponent_scale a b A B) as (E & _ & _). pose proof (great_iff a b A B) as G.
  set (e := exponent_of a b) in *. set (m := mantissa_of a b) in *. clearbody e m. destruct (m =? 2 ^ 53) eqn:M.
  - apply Z.eqb_eq in M. subst m. destruct (971 <? e + 1) eqn:C; change (2 ^ 52) with (Z.pos 4503599627370496); cbv iota.
    + replace (971 <? e + 1) with true. apply near_infinity. apply G. lia.
    + replace (971 <? e + 1) with false. assert (U : units binary64 4503599627370496 (e + 1) = 2 ^ 53 * 2 ^ (1074 + e)).
      { unfold units. change (emin binary64) with (-1074). change 4503599627370496 with (2 ^ 52). rewrite <- !Z.pow_add_r by lia. f_equal. lia. }
      apply near_finite; [intros T; apply G in T; lia| |intros x X; rewrite U; apply (Nx x X)|intros x X; rewrite U; intros Q; destruct (Nx x X) as [_ Y]; destruct (Y Q); auto].
      split; [vm_compute; auto|]. cbn [binary64 emin emax prec]. split; [lia|]. left. vm_compute. discriminate.
  - apply Z.eqb_neq in M. assert (U : forall p, units binary64 p e = p * 2 ^ (1074 + e)) by (intros p; unfold units; change (emin binary64) with (-1074); f_equal; f_equal; lia).
    destruct m as [|p|p]; [| |lia].
    + apply near_zero; [|intros x X; destruct (Nx x X) as [Y _]; rewrite Z.mul_0_l in Y; auto]. intros T. apply G in T. destruct T as [T|[_ T]]; [specialize (Ml ltac:(lia)); change (2 ^ 52) with 4503599627370496 in Ml; lia|discriminate].
    + destruct (971 <? e) eqn:C; [apply near_infinity; apply G; lia|]. apply near_finite; [intros T; apply G in T; lia| |intros x X; rewrite U; apply (Nx x X)|intros x X; rewrite U; apply (Nx x X)].
      split; [cbn [binary64 prec]; lia|]. cbn [binary64 emin emax prec]. split; [lia|]. change (53 - 1) with 52. destruct (Z.eq_dec e (-1074)); [right; auto|left; apply Ml; lia].
Qed.
(** Everything in the interval of a double is rounded to it. *)
Definition in_reach (m e a b : Z) : Prop :=
  (if (m =? 2 ^ 52) && negb (e =? -1074) then (4 * m - 1) * down b e <= 4 * up a e else (4 * m - 2) * down b e <= 4 * up a e) /\
  4 * up a e <= (4 * m + 2) * down b e /\
  (Z.even m = false -> (4 * m - 2) * down b e < 4 * up a e < (4 * m + 2) * down b e).
Lemma up_succ a e : up a (e - 1) = 2 * up a e /\ (forall b, down b (e - 1) = down b e) \/ up a (e - 1) = up a e /\ (forall b, 2 * down b (e - 1) = down b e).
Proof.
  unfold up, down. destruct (Z.le_gt_cases e 0) as [C|C]; [left|right].
  - rewrite !(Z.max_l (- _)), !Z.max_r by lia. split; auto. replace (- (e - 1)) with (Z.succ (- e)) by lia. rewrite Z.pow_succ_r by lia. ring.
  - rewrite !(Z.max_r (- _)), !Z.max_l by lia. split; auto. intros b. replace e with (Z.succ (e - 1)) at 2 by lia. rewrite Z.pow_succ_r by lia. ring.
Qed.
Lemma reach_round neg p e a b : 0 < a -> 0 < b -> representable binary64 (Zpos p) e -> in_reach (Zpos p) e a b -> round_ratio neg a b = S754_finite neg p e.
Proof.
  intros A B ([_ M] & [E1 E2] & Mn) (R1 & R2 & R3). cbn [binary64 prec emin emax] in *. change (53 - 1) with 52 in Mn. rewrite round_ratio_eq. pose proof (up_pos a e A) as PA. pose proof (down_pos b e B) as PB.
  assert (LU : forall l, 2 ^ 52 * down b l <= up a l -> up a l < 2 ^ 53 * down b l -> log2_floor a b = l + 52).
  { intros l X Y. apply log2_floor_unique; auto.
    - set (n := Z.max (- l) 0 + 1). destruct (scaled a b l n) as (k & K & F1 & F2); [lia|lia|]. destruct (scaled a b (l + 52) n) as (k' & K' & F1' & F2'); [lia|lia|].
      assert (Q : b * 2 ^ (n + (l + 52)) <= a * 2 ^ n); [|rewrite F1', F2' in Q; nia]. replace (n + (l + 52)) with (52 + (n + l)) by lia. rewrite Z.pow_add_r by lia.
      replace (b * (2 ^ 52 * 2 ^ (n + l))) with (2 ^ 52 * (b * 2 ^ (n + l))) by ring. rewrite F1, F2. nia.
    - set (n := Z.max (- l) 0 + 1). destruct (scaled a b l n) as (k & K & F1 & F2); [lia|lia|]. destruct (scaled a b (l + 52 + 1) n) as (k' & K' & F1' & F2'); [lia|lia|].
      assert (Q : a * 2 ^ n < b * 2 ^ (n + (l + 52 + 1))); [|rewrite F1', F2' in Q; nia]. replace (n + (l + 52 + 1)) with (53 + (n + l)) by lia. rewrite Z.pow_add_r by lia.
      replace (b * (2 ^ 53 * 2 ^ (n + l))) with (2 ^ 53 * (b * 2 ^ (n + l))) by ring. rewrite F1, F2. nia. }
  assert (Low : up a e < 2 ^ 52 * down b e -> log2_floor a b < e + 52).
  { intros X. destruct (Z.lt_ge_cases (log2_floor a b) (e + 52)) as [|C]; auto. exfalso. set (n := Z.max (- e) 0 + Z.max (- log2_floor a b) 0 + 1). destruct (log2_floor_ok a b n A B) as [G _]; [lia|lia|].
    destruct (scaled a b e n) as (k & K & F1 & F2); [lia|lia|]. assert (Q : 2 ^ 52 * (b * 2 ^ (n + e)) <= b * 2 ^ (n + log2_floor a b)).
    { replace (2 ^ 52 * (b * 2 ^ (n + e))) with (b * (2 ^ 52 * 2 ^ (n + e))) by ring. apply Z.mul_le_mono_nonneg_l; [lia|]. rewrite <- Z.pow_add_r by lia. apply Z.pow_le_mono_r; lia. }
    rewrite F2 in Q. rewrite F1 in G. nia. }
  change (2 ^ 52) with 4503599627370496 in *. change (2 ^ 53) with 9007199254740992 in *.
  destruct ((Z.pos p =? 4503599627370496) && negb (e =? -1074)) eqn:C.
  - apply andb_true_iff in C as [C1 C2]. apply Z.eqb_eq in C1. apply negb_true_iff, Z.eqb_neq in C2. rewrite C1 in *.
    destruct (Z.lt_ge_cases (up a e) (4503599627370496 * down b e)) as [D|D].
    + assert (Q : exists k, (0 < k /\ k * up a (e - 1) = 2 * up a e * 1 /\ k * down b (e - 1) = down b e)) by (destruct (up_succ a e) as [[X Y]|[X Y]]; [exists 1; rewrite X, Y|exists 2; rewrite X, Y]; lia).
      destruct Q as (k & K & X & Y). pose proof (up_pos a (e - 1) A) as PA'. pose proof (down_pos b (e - 1) B) as PB'.
      assert (L1 : log2_floor a b = e - 1 + 52) by (apply LU; nia). assert (Ex : exponent_of a b = e - 1) by (unfold exponent_of; lia).
      assert (Mx : mantissa_of a b = 9007199254740992) by (unfold mantissa_of; rewrite Ex; apply rhe_unique; [auto|nia|reflexivity]). rewrite Mx, Ex, Z.eqb_refl. replace (971 <? e - 1 + 1) with false by lia.
      f_equal; [congruence|lia].
    + assert (L1 : log2_floor a b = e + 52) by (apply LU; lia). assert (Ex : exponent_of a b = e) by (unfold exponent_of; lia).
      assert (Mx : mantissa_of a b = 4503599627370496) by (unfold mantissa_of; rewrite Ex; apply rhe_unique; [auto|nia|reflexivity]). rewrite Mx, Ex. change (4503599627370496 =? 9007199254740992) with false. cbv beta iota. replace (971 <? e) with false by lia. f_equal. congruence.
  - assert (Ex : exponent_of a b = e).
    { destruct (Z.lt_ge_cases (up a e) (4503599627370496 * down b e)) as [D|D].
      - assert (e = -1074); [|specialize (Low D); unfold exponent_of; lia]. destruct (Z.eq_dec e (-1074)); auto. destruct Mn as [Mn|Mn]; [|auto]. exfalso.
        assert (Z.pos p <> 4503599627370496) by (intros Q; rewrite Q in C; cbn in C; lia). nia.
      - assert (Y : up a e < 9007199254740992 * down b e) by nia. specialize (LU e D Y). unfold exponent_of. lia. }
    assert (Mx : mantissa_of a b = Z.pos p).
    { unfold mantissa_of. rewrite Ex. apply rhe_unique; [auto|lia|]. intros Q. destruct (Z.even (Z.pos p)) eqn:Ev; auto. specialize (R3 eq_refl). exfalso. nia. }
    rewrite Mx, Ex. replace (Z.pos p =? 9007199254740992) with false by lia. replace (971 <? e) with false by lia. auto.
Qed.
Lemma a_number_units m e : representable binary64 m e -> a_number binary64 (m * 2 ^ (1074 + e)).
Proof. intros R. right. exists m, e. split; auto. unfold units. change (emin binary64) with (-1074). f_equal. f_equal. lia. Qed.
Lemma nearest_round neg a b v : 0 < a -> 0 < b -> nearest binary64 neg a b v -> round_ratio neg a b = v.
Proof.
  intros A B [T|T N|p e T R N Ti].
  - apply great_iff in T; auto. rewrite round_ratio_eq. destruct (mantissa_nearest a b A B) as (Mb & Ml & _). destruct T as [T|[T1 T2]].
    + specialize (Ml ltac:(lia)). destruct (mantissa_of a b =? 2 ^ 53); [replace (971 <? exponent_of a b + 1) with true by lia; reflexivity|].
      destruct (mantissa_of a b) as [|p|p]; [vm_compute in Ml; contradiction| |vm_compute in Ml; contradiction]. replace (971 <? exponent_of a b) with true by lia. auto.
    + rewrite T1, T2. reflexivity.
  - assert (U : a_number binary64 1) by (right; exists 1, (-1074); split; [split; [vm_compute; auto|split; [vm_compute; split; discriminate|right; reflexivity]]|reflexivity]).
    specialize (N 1 U). unfold distance in N. change (- emin binary64) with 1074 in N. assert (P : 0 < 2 ^ 1074) by (apply pow_pos; lia).
    assert (H : 2 * (a * 2 ^ 1074) <= b) by nia. destruct (exponent_scale a b A B) as (E & _ & Lo).
    assert (Ex : exponent_of a b = -1074).
    { destruct (Z.eq_dec (exponent_of a b) (-1074)) as [|Q]; auto. exfalso. specialize (Lo ltac:(lia)). destruct (scaled a b (exponent_of a b) 1074) as (k & K & E1 & E2); [lia|lia|].
      assert (2 ^ 52 * (b * 2 ^ (1074 + exponent_of a b)) <= a * 2 ^ 1074) by (rewrite E1, E2; nia). assert (0 < 2 ^ (1074 + exponent_of a b)) by (apply pow_pos; lia). change (2 ^ 52) with 4503599627370496 in *. nia. }
    rewrite round_ratio_eq. assert (Mx : mantissa_of a b = 0).
    { unfold mantissa_of. rewrite Ex. assert (Ua : up a (-1074) = a * 2 ^ 1074) by reflexivity. assert (Db : down b (-1074) = b) by (unfold down; rewrite Z.max_r by lia; rewrite Z.pow_0_r; lia). rewrite Ua, Db.
      apply rhe_unique; auto; nia. }
    rewrite Mx, Ex. reflexivity.
  - apply reach_round; auto. assert (R' := R). destruct R as ([M0 M] & [E1 E2] & Mn). cbn [binary64 prec emin emax] in *. change (53 - 1) with 52 in Mn.
    destruct (scaled a b e 1074) as (k & K & F1 & F2); [lia|lia|]. pose proof (up_pos a e A) as PA. pose proof (down_pos b e B) as PB.
    assert (U : units binary64 (Z.pos p) e = Z.pos p * 2 ^ (1074 + e)) by (unfold units; change (emin binary64) with (-1074); f_equal; f_equal; lia). rewrite U in *.
    assert (Step : forall j, a_number binary64 (j * 2 ^ (1074 + e)) -> Z.abs (up a e - Z.pos p * down b e) <= Z.abs (up a e - j * down b e) /\
      (Z.abs (up a e - j * down b e) = Z.abs (up a e - Z.pos p * down b e) -> j = Z.pos p \/ Z.even (Z.pos p) = true)).
    { intros j J. specialize (N _ J). specialize (Ti _ J). rewrite !(distance_scaled a b e k _ F1 F2 K) in *. split; [nia|]. intros Q. destruct Ti as [Ti|Ti]; [rewrite Q; auto| |auto]. left.
      assert (0 < 2 ^ (1074 + e)) by (apply pow_pos; lia). nia. }
    assert (Hi : 4 * up a e <= (4 * Z.pos p + 2) * down b e /\ (Z.even (Z.pos p) = false -> 4 * up a e < (4 * Z.pos p + 2) * down b e)).
    { assert (G : a_number binary64 ((Z.pos p + 1) * 2 ^ (1074 + e)) \/ (e = 971 /\ Z.pos p + 1 = 2 ^ 53)).
      { destruct (Z.eq_dec (Z.pos p + 1) (2 ^ 53)) as [Q|Q]; [|left; apply a_number_units; split; [cbn [binary64 prec]; lia|split; [cbn; lia|destruct Mn; [left; cbn [binary64 prec]; change (53 - 1) with 52; lia|right; auto]]]].
        destruct (Z.eq_dec e 971) as [|Q']; [right; auto|]. left. rewrite Q. replace (2 ^ 53 * 2 ^ (1074 + e)) with (2 ^ 52 * 2 ^ (1074 + (e + 1))) by (rewrite <- !Z.pow_add_r by lia; f_equal; lia).
        apply a_number_units. split; [vm_compute; auto|split; [cbn; lia|left; vm_compute; discriminate]]. }
      destruct G as [G|[G1 G2]].
      - destruct (Step _ G) as [S1 S2]. split; [nia|]. intros Ev. destruct (Z.eq_dec (4 * up a e) ((4 * Z.pos p + 2) * down b e)) as [Q|Q]; [|nia]. exfalso. destruct S2 as [S2|S2]; [nia|lia|congruence].
      - subst e. unfold too_great in T. cbn [binary64 prec emax] in T. change (53 + 1) with 54 in T. change (971 - 1) with 970 in T. fold threshold in T.
        assert (Ua : up a 971 = a) by (unfold up; rewrite Z.max_r by lia; rewrite Z.pow_0_r; lia). assert (Db : down b 971 = b * 2 ^ 971) by reflexivity. rewrite Ua, Db in *.
        assert (T2 : 2 * threshold = (2 ^ 54 - 1) * 2 ^ 971) by (vm_compute; reflexivity). assert (TD : 2 * (b * threshold) = (2 ^ 54 - 1) * (b * 2 ^ 971)) by (transitivity (b * (2 * threshold)); [ring|rewrite T2; ring]).
        set (D := b * 2 ^ 971) in *. change (2 ^ 53) with 9007199254740992 in *. change (2 ^ 54) with 18014398509481984 in *. assert (4 * a < (4 * Z.pos p + 2) * D) by nia. split; lia. }
    assert (Lw : (if (Z.pos p =? 2 ^ 52) && negb (e =? -1074) then (4 * Z.pos p - 1) * down b e <= 4 * up a e else (4 * Z.pos p - 2) * down b e <= 4 * up a e) /\ (Z.even (Z.pos p) = false -> (4 * Z.pos p - 2) * down b e < 4 * up a e)).
    { destruct ((Z.pos p =? 2 ^ 52) && negb (e =? -1074)) eqn:C.
      - apply andb_true_iff in C as [C1 C2]. apply Z.eqb_eq in C1. apply negb_true_iff, Z.eqb_neq in C2. split; [|rewrite C1; discriminate].
        assert (G : a_number binary64 ((2 ^ 53 - 1) * 2 ^ (1074 + (e - 1)))) by (apply a_number_units; split; [vm_compute; auto|split; [cbn; lia|left; vm_compute; discriminate]]).
        specialize (N _ G). rewrite (distance_scaled a b e k _ F1 F2 K) in N. unfold distance in N. change (- emin binary64) with 1074 in N. rewrite F1 in N. rewrite C1 in *.
        assert (H2 : 2 * (b * ((2 ^ 53 - 1) * 2 ^ (1074 + (e - 1)))) = (2 ^ 53 - 1) * (down b e * k)).
        { rewrite <- F2. replace (1074 + e) with (Z.succ (1074 + (e - 1))) by lia. rewrite Z.pow_succ_r by lia. ring. }
        set (X := b * ((2 ^ 53 - 1) * 2 ^ (1074 + (e - 1)))) in *. clearbody X. change (2 ^ 52) with 4503599627370496 in *. change (2 ^ 53) with 9007199254740992 in *.
        assert (Hd : 2 * Z.abs (up a e - 4503599627370496 * down b e) * k <= Z.abs (2 * (up a e * k) - 9007199254740991 * (down b e * k))) by lia.
        assert (Hd' : Z.abs (2 * (up a e * k) - 9007199254740991 * (down b e * k)) = Z.abs (2 * up a e - 9007199254740991 * down b e) * k).
        { replace (2 * (up a e * k) - 9007199254740991 * (down b e * k)) with ((2 * up a e - 9007199254740991 * down b e) * k) by ring. rewrite Z.abs_mul, (Z.abs_eq k) by lia. auto. }
        rewrite Hd' in Hd. apply Z.mul_le_mono_pos_r in Hd; [|exact K]. clear - Hd PB. lia.
      - assert (G : a_number binary64 ((Z.pos p - 1) * 2 ^ (1074 + e))).
        { destruct (Z.eq_dec (Z.pos p) 1) as [Q|Q]; [left; rewrite Q; ring|]. apply a_number_units. split; [cbn [binary64 prec]; lia|]. split; [cbn; lia|]. cbn [binary64 prec emin]. change (53 - 1) with 52.
          destruct (Z.eq_dec e (-1074)); [right; auto|left]. destruct Mn as [Mn|Mn]; [|lia]. assert (Z.pos p <> 2 ^ 52); [|lia]. intros Z. rewrite Z, Z.eqb_refl in C. cbn in C. lia. }
        destruct (Step _ G) as [S1 S2]. split; [nia|]. intros Ev. destruct (Z.eq_dec (4 * up a e) ((4 * Z.pos p - 2) * down b e)) as [Q|Q]; [|nia]. exfalso. destruct S2 as [S2|S2]; [nia|lia|congruence]. }
    split; [apply Lw|]. split; [apply Hi|]. intros Ev. split; [apply Lw; auto|apply Hi; auto].
Qed.
Lemma of_decimal_iff neg n x v : of_decimal binary64 neg n x v <-> f64_of_decimal neg n x = v.
Proof.
  unfold of_decimal, f64_of_decimal. assert (T : forall y, 0 < 10 ^ Z.max y 0) by (intros y; apply Z.pow_pos_nonneg; lia). destruct n as [|n].
  - rewrite Z.mul_0_l. assert (B := T (- x)). set (b := 10 ^ Z.max (- x) 0) in *. clearbody b. assert (NT : ~ too_great binary64 0 b).
    { unfold too_great. assert (P : 0 < (2 ^ (prec binary64 + 1) - 1) * 2 ^ (emax binary64 - 1)) by (apply Z.ltb_lt; vm_compute; reflexivity). intros Q. apply Z.le_ngt in Q. apply Q. apply Z.mul_pos_pos; auto. }
    split.
    + intros [Q|_ _|p e _ R N _]; [contradiction|auto|]. exfalso. specialize (N 0 (or_introl eq_refl)). unfold distance in N. rewrite Z.mul_0_l, Z.mul_0_r in N. cbn [Z.sub Z.opp Z.abs] in N.
      assert (0 < units binary64 (Z.pos p) e); [|nia]. unfold units. destruct R as (_ & [R _] & _). assert (0 < 2 ^ (e - emin binary64)) by (apply pow_pos; lia). nia.
    + intros <-. apply near_zero; auto. intros y _. unfold distance. rewrite Z.mul_0_l, Z.mul_0_r. cbn. lia.
  - assert (A : 0 < Z.of_N (N.pos n) * 10 ^ Z.max x 0) by (specialize (T x); nia). split; [apply nearest_round; auto|intros <-; apply round_nearest; auto].
Qed.

(** ** Texts *)
Definition undigit (s : str) : Prop := match s with c :: _ => is_ascii_digit c = false | [] => True end.
Lemma leading_digits_iff s a r : leading_digits s = (a, r) <-> s = a ++ r /\ forallb is_ascii_digit a = true /\ undigit r.
Proof.
  revert a r. induction s as [|c s IH]; intros a r; cbn [leading_digits].
  - split; [intros [= <- <-]; cbn; auto|]. intros (E & _ & _). destruct a; [|discriminate]. cbn in E. subst. auto.
  - destruct (is_ascii_digit c) eqn:D.
    + destruct (leading_digits s) as [a' r'] eqn:L. split.
      * intros [= <- <-]. destruct (proj1 (IH _ _) eq_refl) as (-> & F & U). cbn. rewrite D. auto.
      * intros (E & F & U). destruct a as [|y a]; [cbn in E; subst r; cbn in U; congruence|]. cbn in E, F. injection E as <- E. apply andb_true_iff in F as [_ F].
        assert (X : (a', r') = (a, r)) by (apply IH; auto). injection X as -> ->. auto.
    + split; [intros [= <- <-]; cbn; auto|]. intros (E & F & U). destruct a as [|y a]; [cbn in E; subst; auto|]. cbn in E, F. injection E as <- _. rewrite D in F. discriminate.
Qed.
Lemma leading_digits_app a r : forallb is_ascii_digit a = true -> undigit r -> leading_digits (a ++ r) = (a, r).
Proof. intros. apply leading_digits_iff. auto. Qed.
Lemma leading_sign_iff s neg t : leading_sign s = (neg, t) <-> exists sg, s = sg ++ t /\ sign_lex sg neg /\ (sg = [] -> match t with c :: _ => c <> 45%N /\ c <> 43%N | [] => True end).
Proof.
  unfold leading_sign. destruct s as [|c s].
  - split; [intros [= <- <-]; exists []; split; [reflexivity|split; [constructor|auto]]|]. intros (sg & E & S & _). destruct S; cbn in E; try discriminate. subst. auto.
  - destruct (N.eqb_spec c 45) as [->|N1]; [|destruct (N.eqb_spec c 43) as [->|N2]].
    + split; [intros [= <- <-]; exists (lit "-"); split; [reflexivity|split; [constructor|discriminate]]|]. intros (sg & E & S & H). destruct S; cbn in E; [subst; destruct (H eq_refl); congruence|discriminate|injection E as ->; auto].
    + split; [intros [= <- <-]; exists (lit "+"); split; [reflexivity|split; [constructor|discriminate]]|]. intros (sg & E & S & H). destruct S; cbn in E; [subst; destruct (H eq_refl); congruence|injection E as ->; auto|discriminate].
    + split; [intros [= <- <-]; exists []; split; [reflexivity|split; [constructor|auto]]|]. intros (sg & E & S & H). destruct S; cbn in E; [subst; auto|injection E as -> _; exfalso; apply N2; reflexivity|injection E as -> _; exfalso; apply N1; reflexivity].
Qed.
Lemma digits_num s : s <> [] -> forallb is_ascii_digit s = true -> num s (digits_val s).
Proof. intros. apply num_iff. auto. Qed.
Lemma integer_iff s z : xsd_integer s z <-> exists neg t, leading_sign s = (neg, t) /\ t <> [] /\ forallb is_ascii_digit t = true /\ z = (if neg then - Z.of_N (digits_val t) else Z.of_N (digits_val t)).
Proof.
  assert (F : forall c t, forallb is_ascii_digit (c :: t) = true -> c <> 45%N /\ c <> 43%N) by (intros c t H; cbn in H; apply andb_true_iff in H as [H _]; unfold is_ascii_digit in H; lia). split.
  - intros [s' n H|s' n H|s' n H]; apply num_iff in H as (N & D & <-).
    + exists false, s'. split; [|auto]. apply leading_sign_iff. exists []. split; [reflexivity|split; [constructor|]]. intros _. destruct s'; [auto|eapply F; eauto].
    + exists false, s'. split; [|auto]. apply leading_sign_iff. exists (lit "+"). split; [reflexivity|split; [constructor|discriminate]].
    + exists true, s'. split; [|auto]. apply leading_sign_iff. exists (lit "-"). split; [reflexivity|split; [constructor|discriminate]].
  - intros (neg & t & L & N & D & ->). apply leading_sign_iff in L as (sg & -> & S & _). destruct S; constructor; apply digits_num; auto.
Qed.
Definition unexponent (s : str) : Prop := match s with c :: _ => is_ascii_digit c = false /\ c <> 46%N | [] => True end.
Lemma exponent_undigit es z : exponent_lex es z -> unexponent es.
Proof. intros [|e s z' [<-|[<-|[]]] _]; cbn; auto; split; [reflexivity|discriminate|reflexivity|discriminate]. Qed.
Lemma parse_number_iff s d x : parse_number s = Some (d, x) <-> exists ms k es z, s = ms ++ es /\ mantissa_lex ms d k /\ exponent_lex es z /\ x = z - Z.of_nat k.
Proof.
  unfold parse_number. split.
  - destruct (leading_digits s) as [a r] eqn:La. apply leading_digits_iff in La as (-> & Fa & Ua).
    set (P := match r with c :: t => if N.eqb c 46 then leading_digits t else ([], r) | [] => ([], []) end). destruct P as [b r'] eqn:EP.
    assert (X : exists dot, r = dot ++ b ++ r' /\ forallb is_ascii_digit b = true /\ (dot = [] /\ b = [] \/ dot = lit ".")).
    { subst P. destruct r as [|c t]; [injection EP as <- <-; exists []; auto|]. destruct (N.eqb_spec c 46) as [->|N].
      - apply leading_digits_iff in EP as (-> & Fb & _). exists (lit "."). auto.
      - injection EP as <- <-. exists []. auto. }
    clear EP P. destruct X as (dot & -> & Fb & Dt). destruct (is_empty (a ++ b)) eqn:Em; [discriminate|].
    assert (M : mantissa_lex (a ++ dot ++ b) (digits_val (a ++ b)) (List.length b)).
    { destruct Dt as [[-> ->]| ->].
      - rewrite !app_nil_r in *. cbn [List.length]. constructor. apply digits_num; auto. intros ->. discriminate.
      - destruct a as [|c a]; [cbn [app] in *; apply mant_fraction; apply digits_num; [intros ->; discriminate|auto]|]. destruct b as [|y b]; [rewrite !app_nil_r; apply mant_dot; apply digits_num; [discriminate|auto]|].
        eapply mant_both; apply digits_num; try discriminate; auto. rewrite forallb_app, Fa, Fb. auto. }
    destruct r' as [|c t]; [intros [= <- <-]; exists (a ++ dot ++ b), (List.length b), [], 0; rewrite !app_nil_r; split; [auto|split; [auto|split; [apply exp_none|lia]]]|].
    destruct ((N.eqb c 101 || N.eqb c 69)%bool) eqn:C; [|discriminate]. destruct (leading_sign t) as [neg t'] eqn:Ls. destruct (leading_digits t') as [y rest] eqn:Ly. apply leading_digits_iff in Ly as (-> & Fy & _).
    destruct (is_empty y || negb (is_empty rest)) eqn:Z; [discriminate|]. apply orb_false_iff in Z as [Z1 Z2]. destruct rest; [|discriminate]. rewrite app_nil_r in Ls.
    intros [= <- <-]. exists (a ++ dot ++ b), (List.length b), (c :: t). eexists. split; [rewrite <- !app_assoc; auto|]. split; auto. split; [|reflexivity].
    apply (exp_some [c]). { apply orb_true_iff in C as [C|C]; apply N.eqb_eq in C as ->; [left|right; left]; reflexivity. }
    apply integer_iff. exists neg, y. repeat split; auto. intros ->. discriminate.
  - intros (ms & k & es & z & -> & M & Ex & ->). assert (Ue := exponent_undigit _ _ Ex).
    assert (Split : exists a dot b, ms = a ++ dot ++ b /\ forallb is_ascii_digit a = true /\ forallb is_ascii_digit b = true /\ (dot = [] /\ b = [] \/ dot = lit ".") /\ is_empty (a ++ b) = false /\ d = digits_val (a ++ b) /\ k = List.length b).
    { destruct M as [s n H|s n H|a b x y n Ha Hb H|b n H].
      - apply num_iff in H as (N & D & <-). exists s, [], []. rewrite !app_nil_r. repeat split; auto. destruct s; [congruence|auto].
      - apply num_iff in H as (N & D & <-). exists s, (lit "."), []. rewrite !app_nil_r. repeat split; auto. destruct s; [congruence|auto].
      - apply num_iff in H as (N & D & <-), Ha as (Na & Da & _), Hb as (Nb & Db & _). exists a, (lit "."), b. repeat split; auto. destruct a; [congruence|auto].
      - apply num_iff in H as (N & D & <-). exists [], (lit "."), b. repeat split; auto. destruct b; [congruence|auto]. }
    destruct Split as (a & dot & b & -> & Fa & Fb & Dt & Em & -> & ->). rewrite <- !app_assoc.
    rewrite (leading_digits_app a (dot ++ b ++ es) Fa) by (destruct Dt as [[-> ->]| ->]; [destruct es; cbn in *; tauto|reflexivity]).
    assert (P : match dot ++ b ++ es with c :: t => if N.eqb c 46 then leading_digits t else @pair str str [] (dot ++ b ++ es) | [] => @pair str str [] [] end = (b, es)).
    { destruct Dt as [[-> ->]| ->]; cbn [app].
      - destruct es as [|c es]; auto. destruct Ue as [_ Ue]. destruct (N.eqb_spec c 46); [contradiction|auto].
      - change (lit "." ++ b ++ es) with (46%N :: b ++ es). cbn [N.eqb Pos.eqb]. apply leading_digits_app; auto. destruct es; cbn in *; tauto. }
    match goal with |- match ?X with (_, _) => _ end = _ => replace X with (b, es) by (symmetry; exact P) end. cbv beta iota zeta. rewrite Em. destruct Ex as [|e s z [<-|[<-|[]]] I]; [f_equal; f_equal; lia| |].
    all: apply integer_iff in I as (neg & t & Ls & Nt & Ft & ->).
    1: change (lit "e" ++ s) with (101%N :: s). 2: change (lit "E" ++ s) with (69%N :: s).
    all: cbn [N.eqb Pos.eqb orb].
    all: (assert (Lt := leading_digits_app t [] Ft I); rewrite app_nil_r in Lt).
    all: rewrite Ls, Lt; destruct t; try congruence; reflexivity.
Qed.
Lemma mantissa_first ms n k es : mantissa_lex ms n k -> exists c t, ms ++ es = c :: t /\ (is_ascii_digit c = true \/ c = 46%N).
Proof.
  intros [s m H|s m H|a b x y m H _ _|b m H]; [| | |exists 46%N, (b ++ es); auto]; apply num_iff in H as (N & D & _).
  all: match goal with H : forallb _ ?l = true |- _ => destruct l as [|c l]; [congruence|]; cbn in H; apply andb_true_iff in H as [H _] end; cbn [app]; do 2 eexists; split; [reflexivity|auto].
Qed.
Lemma lower_word w c t : map to_ascii_lowercase w = c :: t -> (97 <= c)%N -> exists d u, w = d :: u /\ is_ascii_digit d = false /\ d <> 45%N /\ d <> 43%N /\ d <> 46%N.
Proof.
  destruct w as [|d u]; [discriminate|]. cbn [map]. intros [= E _] L. exists d, u. split; auto. unfold to_ascii_lowercase, is_ascii_upper, is_ascii_digit in *. destruct ((65 <=? d)%N && (d <=? 90)%N)%bool eqn:X; lia.
Qed.
Lemma from_str_iff s v : f64_from_str s = Ok v <-> floating binary64 s v \/ lenient_word s v.
Proof.
  unfold f64_from_str. split.
  - destruct (leading_sign s) as [neg t] eqn:L. apply leading_sign_iff in L as (sg & -> & S & _). destruct (parse_number t) as [[d x]|] eqn:P.
    + intros [= <-]. left. apply parse_number_iff in P as (ms & k & es & z & -> & M & Ex & ->). eapply fl_number; eauto. apply of_decimal_iff. auto.
    + intros H. right. exists sg, neg, t. split; auto. split; auto. destruct (str_eqb_spec (map to_ascii_lowercase t) (lit "inf")) as [->|]; [injection H as <-; left; split; [left|]; reflexivity|].
      destruct (str_eqb_spec (map to_ascii_lowercase t) (lit "infinity")) as [->|]; [injection H as <-; left; split; [right; left|]; reflexivity|]. cbn [orb] in H.
      destruct (str_eqb_spec (map to_ascii_lowercase t) (lit "nan")) as [->|]; [injection H as <-; right; auto|discriminate].
  - assert (W : forall sg neg w c t, sign_lex sg neg -> map to_ascii_lowercase w = c :: t -> (97 <= c)%N -> leading_sign (sg ++ w) = (neg, w) /\ parse_number w = None).
    { intros sg neg w c t S E C. destruct (lower_word _ _ _ E C) as (d & u & -> & D & D1 & D2 & D3). split; [apply leading_sign_iff; exists sg; auto|].
      destruct (parse_number (d :: u)) as [[n x]|] eqn:P; auto. apply parse_number_iff in P as (ms & k & es & z & E' & M & _). destruct (mantissa_first _ _ _ es M) as (c' & t' & E'' & F). rewrite E'' in E'. injection E' as <- _. destruct F as [F|F]; congruence. }
    intros [F|(sg & neg & w & -> & S & [[I ->]|[E ->]])].
    + destruct F as [sg neg ms n k es z v S M Ex D| | |]; try reflexivity.
      assert (L : leading_sign (sg ++ ms ++ es) = (neg, ms ++ es)). { apply leading_sign_iff. exists sg. split; auto. split; auto. intros _. destruct (mantissa_first _ _ _ es M) as (c & t & -> & [F| ->]); [unfold is_ascii_digit in F; split; lia|split; discriminate]. }
      rewrite L. assert (P : parse_number (ms ++ es) = Some (n, z - Z.of_nat k)) by (apply parse_number_iff; eauto 10). rewrite P. f_equal. apply of_decimal_iff. auto.
    + destruct I as [E|[E|[]]]; (destruct (W sg neg w (chr "i") (tl (map to_ascii_lowercase w)) S) as [-> ->]; [rewrite <- E; reflexivity|vm_compute; discriminate|]); cbn [fst]; rewrite <- E; reflexivity.
    + destruct (W sg neg w (chr "n") (lit "an") S) as [-> ->]; [rewrite E; reflexivity|vm_compute; discriminate|]. rewrite E. reflexivity.
Qed.
