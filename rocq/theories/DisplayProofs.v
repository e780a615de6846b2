(** Proofs about f64 written as text: what is written is read back. *)
From Coq Require Import Arith NArith ZArith Bool Ascii String List Lia.
From Coq Require Import Floats.SpecFloat.
From Verif Require Import Str StrFacts SpecLex TzProofs Dur DurProofs Float SpecDouble FloatProofs.
Import ListNotations.
Local Open Scope string_scope.
Local Open Scope list_scope.
Local Open Scope Z_scope.
Arguments lit : simpl never.

(** ** The interval *)
Lemma cmp_scale k x y : 0 < k -> (k * x ?= k * y) = (x ?= y).
Proof. intros H. symmetry. apply Zmult_compare_compat_l. lia. Qed.
Lemma dec_cmp_eq d q b e : dec_cmp d q b (e - 2) = (4 * up (d * 10 ^ Z.max q 0) e ?= b * down (10 ^ Z.max (- q) 0) e).
Proof.
  unfold dec_cmp. fold (up (d * 10 ^ Z.max q 0) (e - 2)). set (p := d * 10 ^ Z.max q 0). set (Q := 10 ^ Z.max (- q) 0).
  replace (b * 2 ^ Z.max (e - 2) 0 * Q) with (b * down Q (e - 2)) by (unfold down; ring).
  replace (e - 2) with (e - 1 - 1) by lia. destruct (up_succ p (e - 1)) as [[-> D1]|[-> D1]], (up_succ p e) as [[-> D2]|[-> D2]]; specialize (D1 Q); specialize (D2 Q).
  - rewrite D1, D2. f_equal. ring.
  - rewrite <- D2, D1, <- (cmp_scale 2 (2 * _)) by lia. f_equal; ring.
  - rewrite <- D2, <- D1, <- (cmp_scale 2 (2 * _)) by lia. f_equal; ring.
  - rewrite <- D2, <- D1, <- (cmp_scale 4 (up p e)) by lia. f_equal; ring.
Qed.
Definition low (m e : Z) : Z := if (m =? 2 ^ 52) && negb (e =? -1074) then 4 * m - 1 else 4 * m - 2.
Lemma interval_iff m e d q : let U := 4 * up (d * 10 ^ Z.max q 0) e in let D := down (10 ^ Z.max (- q) 0) e in
  in_interval m e d q = true <-> low m e * D <= U <= (4 * m + 2) * D /\ (low m e * D = U \/ U = (4 * m + 2) * D -> low m e * D < (4 * m + 2) * D /\ Z.even m = true).
Proof.
  intros U D. unfold in_interval. fold (low m e). rewrite !dec_cmp_eq. fold U D. clearbody U D. destruct (Z.compare_spec U (low m e * D)), (Z.compare_spec U ((4 * m + 2) * D)); split; try discriminate; try lia; auto; intros X; try (apply (proj2 X); lia); try (split; [lia|intros Y; split; [lia|auto; lia]]).
Qed.
Lemma interval_reach m e d q : in_interval m e d q = true -> in_reach m e (d * 10 ^ Z.max q 0) (10 ^ Z.max (- q) 0).
Proof.
  intros H. apply interval_iff in H as ([H1 H2] & H3). unfold in_reach. unfold low in *. destruct ((m =? 2 ^ 52) && negb (e =? -1074)) eqn:C.
  - split; auto. split; auto. apply andb_true_iff in C as [C _]. apply Z.eqb_eq in C as ->. discriminate.
  - split; auto. split; auto. intros O. rewrite O in H3. split.
    + destruct (Z.eq_dec ((4 * m - 2) * down (10 ^ Z.max (- q) 0) e) (4 * up (d * 10 ^ Z.max q 0) e)) as [E|E]; [destruct (H3 (or_introl E)); discriminate|lia].
    + destruct (Z.eq_dec (4 * up (d * 10 ^ Z.max q 0) e) ((4 * m + 2) * down (10 ^ Z.max (- q) 0) e)) as [E|E]; [destruct (H3 (or_intror E)); discriminate|lia].
Qed.
Lemma reach_scale m e a b k : 0 < k -> in_reach m e (a * k) (b * k) -> in_reach m e a b.
Proof.
  intros K. unfold in_reach. replace (up (a * k) e) with (up a e * k) by (unfold up; ring). replace (down (b * k) e) with (down b e * k) by (unfold down; ring).
  intros (H1 & H2 & H3). split; [destruct (_ && _); nia|]. split; [nia|]. intros O. specialize (H3 O). nia.
Qed.

(** ** The number of digits before the point *)
Lemma ten_pos e : 0 <= e -> 0 < 10 ^ e.
Proof. intros. apply Z.pow_pos_nonneg; lia. Qed.
Lemma dec_bounds n : (0 < n)%N -> (10 ^ N.of_nat (List.length (dec n) - 1) <= n < 10 ^ N.of_nat (List.length (dec n)))%N.
Proof.
  intros H. destruct (dec_spec n) as (D & V & _ & F & _). destruct F as (c & t & E & C); [lia|]. pose proof (digits_val_bound _ D) as B. rewrite V in B. split; auto.
  rewrite E in *. cbn [List.length] in *. replace (S (List.length t) - 1)%nat with (List.length t) by lia. rewrite digits_val_cons in V. cbn [forallb] in D. apply andb_prop in D as [D _].
  assert (1 <= digit_val c)%N by (unfold digit_val, is_ascii_digit in *; lia). nia.
Qed.
Lemma lead_zeros_ok fuel : forall a b j, 0 < a < b -> b <= 10 ^ Z.of_nat fuel * a ->
  exists r, lead_zeros fuel a b j = j + r /\ 1 <= r /\ b <= 10 ^ r * a /\ 10 ^ (r - 1) * a < b.
Proof.
  induction fuel as [|f IH]; intros a b j A B; [cbn in B; lia|]. cbn [lead_zeros]. destruct (Z.leb_spec b a); [lia|].
  destruct (Z.le_gt_cases b (10 * a)) as [L|G].
  - exists 1. split; [|change (10 ^ 1) with 10; change (10 ^ (1 - 1)) with 1; lia]. destruct f; cbn [lead_zeros]; [auto|]. destruct (Z.leb_spec b (10 * a)); [auto|lia].
  - destruct (IH (10 * a) b (j + 1)) as (r & -> & R & X & Y); [lia| |].
    { rewrite Nat2Z.inj_succ, Z.pow_succ_r in B by lia. lia. }
    exists (r + 1). split; [lia|]. split; [lia|]. replace (r + 1 - 1) with (Z.succ (r - 1)) by lia. change (r + 1) with (Z.succ r). rewrite !Z.pow_succ_r by lia. split; nia.
Qed.
(** The value as a quotient. *)
Definition above (m e : Z) : Z := m * 2 ^ Z.max e 0.
Definition below (e : Z) : Z := 2 ^ Z.max (- e) 0.
Lemma log10_floor_ok m e : 0 < m -> -1074 <= e -> let L := log10_floor m e in
  below e * 10 ^ Z.max L 0 <= above m e * 10 ^ Z.max (- L) 0 /\ above m e * 10 ^ Z.max (- (L + 1)) 0 < below e * 10 ^ Z.max (L + 1) 0.
Proof.
  intros M E L. subst L. unfold log10_floor. fold (above m e) (below e). assert (B : 0 < below e) by (apply pow_max). assert (A : 0 < above m e) by (apply Z.mul_pos_pos; [auto|apply pow_max]).
  destruct (Z.leb_spec (below e) (above m e)) as [C|C].
  - assert (Q : 1 <= above m e / below e) by (apply Z.div_le_lower_bound; lia). set (n := Z.to_N (above m e / below e)). destruct (dec_bounds n) as [B1 B2]; [subst n; lia|].
    set (l := List.length (dec n)) in *. assert (1 <= l)%nat by (subst l; pose proof (dec_nonempty n); destruct (dec n); [congruence|cbn; lia]).
    assert (Z1 : 10 ^ (Z.of_nat l - 1) <= above m e / below e). { apply N2Z.inj_le in B1. rewrite N2Z.inj_pow, nat_N_Z in B1. subst n. rewrite Z2N.id in B1 by lia. replace (Z.of_nat l - 1) with (Z.of_nat (l - 1)) by lia. auto. }
    assert (Z2 : above m e / below e < 10 ^ Z.of_nat l). { apply N2Z.inj_lt in B2. rewrite N2Z.inj_pow, nat_N_Z in B2. subst n. rewrite Z2N.id in B2 by lia. auto. }
    replace (Z.max (- (Z.of_nat l - 1)) 0) with 0 by lia. replace (Z.max (Z.of_nat l - 1) 0) with (Z.of_nat l - 1) by lia. replace (Z.of_nat l - 1 + 1) with (Z.of_nat l) by lia.
    replace (Z.max (- Z.of_nat l) 0) with 0 by lia. replace (Z.max (Z.of_nat l) 0) with (Z.of_nat l) by lia. change (10 ^ 0) with 1. rewrite !Z.mul_1_r.
    pose proof (Z.mul_div_le (above m e) (below e) B). pose proof (Z.mul_succ_div_gt (above m e) (below e) B). clearbody l n. split; [|]; eapply Z.le_trans + eapply Z.lt_le_trans; eauto; apply Z.mul_le_mono_nonneg_l; lia.
  - destruct (lead_zeros_ok 400 (above m e) (below e) 0) as (r & -> & R & X & Y); [lia| |].
    { apply Z.le_trans with (10 ^ Z.of_nat 400 * 1); [|apply Z.mul_le_mono_nonneg_l; [apply Z.lt_le_incl, ten_pos; lia|lia]]. rewrite Z.mul_1_r. apply Z.le_trans with (2 ^ 1074); [apply Z.pow_le_mono_r; lia|]. vm_compute. discriminate. }
    rewrite Z.add_0_l. rewrite Z.opp_involutive. replace (- (- r + 1)) with (r - 1) by lia. rewrite !Z.max_r, !Z.max_l by lia. replace (Z.max (- r + 1) 0) with 0 by lia. change (10 ^ 0) with 1. split; lia.
Qed.
Lemma digits_left m e E q : 0 < m -> below e * 10 ^ Z.max E 0 <= above m e * 10 ^ Z.max (- E) 0 -> q <= E ->
  below e * 10 ^ Z.max q 0 * 10 ^ (E - q) <= above m e * 10 ^ Z.max (- q) 0.
Proof.
  intros M H Q. assert (T : 0 < 10 ^ (E - q)) by (apply ten_pos; lia). destruct (Z.le_gt_cases 0 q).
  - rewrite !Z.max_l, !Z.max_r in * by lia. rewrite <- Z.mul_assoc, <- Z.pow_add_r by lia. replace (q + (E - q)) with E by lia. auto.
  - rewrite (Z.max_r q), (Z.max_l (- q)) by lia. change (10 ^ 0) with 1. rewrite Z.mul_1_r. destruct (Z.le_gt_cases 0 E).
    + rewrite Z.max_l, Z.max_r in H by lia. replace (E - q) with (E + - q) by lia. rewrite Z.pow_add_r, Z.mul_assoc by lia. apply Z.mul_le_mono_nonneg_r; [apply Z.lt_le_incl, ten_pos; lia|]. change (10 ^ 0) with 1 in H. lia.
    + rewrite Z.max_r, Z.max_l in H by lia. change (10 ^ 0) with 1 in H. replace (- q) with (- E + (E - q)) by lia. rewrite Z.pow_add_r, Z.mul_assoc by lia. apply Z.mul_le_mono_nonneg_r; lia.
Qed.
Lemma near_ok a b : 0 < b -> 2 * Z.abs (a - match 2 * (a mod b) ?= b with Gt => a / b + 1 | _ => a / b end * b) <= b.
Proof.
  intros B. pose proof (Z.div_mod a b ltac:(lia)) as D. pose proof (Z.mod_pos_bound a b B) as R. generalize dependent (a / b). generalize dependent (a mod b). intros r R f ->. destruct (Z.compare_spec (2 * r) b).
  - replace (b * f + r - f * b) with r by ring. lia.
  - replace (b * f + r - f * b) with r by ring. lia.
  - replace (b * f + r - (f + 1) * b) with (r - b) by ring. lia.
Qed.
Lemma div_one a b t : 0 < b -> 1 <= t -> b * t <= a -> 1 <= a / b.
Proof. intros. apply Z.div_le_lower_bound; nia. Qed.
Lemma shortest_ok m e : representable binary64 m e -> forall fuel k, 1 <= k -> 17 <= k + Z.of_nat fuel ->
  let '(d, q) := shortest fuel m e (log10_floor m e) k in 0 < d /\ in_interval m e d q = true.
Proof.
  intros ([M0 M] & [E1 _] & Mn). cbn [binary64 prec emin emax] in *. destruct (log10_floor_ok m e M0 E1) as [H _]. set (E := log10_floor m e) in *. clearbody E.
  induction fuel as [|f IH]; intros k K F; cbn [shortest]; set (q := E - k + 1).
  all: unfold floor_scaled; fold (above m e) (below e).
  all: assert (P := digits_left m e E q M0 H ltac:(lia)).
  all: set (a := above m e * 10 ^ Z.max (- q) 0) in *; set (b := below e * 10 ^ Z.max q 0) in *.
  all: assert (B : 0 < b) by (apply Z.mul_pos_pos; [apply pow_max|apply ten_pos; lia]).
  all: assert (T : 1 <= 10 ^ (E - q)) by (pose proof (ten_pos (E - q)); lia).
  all: assert (A : 1 <= a / b) by (apply (div_one a b _ B T P)).
  all: set (near := match 2 * (a mod b) ?= b with Gt => a / b + 1 | _ => a / b end); set (far := match 2 * (a mod b) ?= b with Gt => a / b | _ => a / b + 1 end).
  all: assert (Pn : 0 < near) by (subst near; destruct (_ ?= _); lia); assert (Pf : 0 < far) by (subst far; destruct (_ ?= _); lia).
  all: destruct (in_interval m e near q) eqn:In; [auto|]; destruct (in_interval m e far q) eqn:If; [auto|].
  - exfalso. apply Bool.not_true_iff_false in In. apply In. apply interval_iff. clear In If Pf far.
    assert (N : 2 * Z.abs (a - near * b) <= b).
    { apply near_ok; auto. }
    replace (4 * up (near * 10 ^ Z.max q 0) e) with (4 * (near * b)) by (subst b; unfold up, below; ring). set (D := down (10 ^ Z.max (- q) 0) e).
    assert (Ea : a = m * D) by (subst a D; unfold above, down; ring). assert (PD : 0 < D) by (apply down_pos, ten_pos; lia).
    assert (G : b * 10 ^ 16 <= m * D). { rewrite <- Ea. eapply Z.le_trans; [|exact P]. apply Z.mul_le_mono_nonneg_l; [lia|]. apply Z.pow_le_mono_r; lia. }
    clearbody near D a b. subst a. clear P A T H. unfold low.
    assert (D1 : b < D). { change (10 ^ 16) with 10000000000000000 in G. change (2 ^ 53) with 9007199254740992 in M. nia. }
    destruct ((m =? 2 ^ 52) && negb (e =? -1074)) eqn:C.
    + apply andb_true_iff in C as [C _]. apply Z.eqb_eq in C as ->. assert (D2 : 2 * b < D) by (change (10 ^ 16) with 10000000000000000 in G; change (2 ^ 52) with 4503599627370496 in G; lia). clear G. split; [split; lia|intros [X|X]; lia].
    + split; [split; nia|intros [X|X]; nia].
  - apply IH; lia.
Qed.

(** ** The text *)
Lemma strip_zeros_ok s : exists j, s = strip_zeros s ++ zeros j.
Proof.
  unfold strip_zeros. set (go := fix go l := match l with c :: t => if N.eqb c 48 then go t else l | [] => [] end).
  assert (H : forall l, exists j, l = zeros j ++ go l).
  { induction l as [|c t [j IH]]; [exists O; reflexivity|]. cbn [go]. destruct (N.eqb_spec c 48) as [->|_]; [exists (S j); cbn [zeros app]; f_equal; exact IH|exists O; reflexivity]. }
  assert (R : forall j, rev (zeros j) = zeros j).
  { assert (Q : forall j, zeros j ++ [48%N] = 48%N :: zeros j) by (induction j as [|j IH]; cbn [zeros app]; [reflexivity|rewrite IH; reflexivity]). induction j as [|j IH]; cbn [zeros rev]; auto. rewrite IH. apply Q. }
  destruct (H (rev s)) as [j E]. exists j. apply (f_equal (@rev N)) in E. rewrite rev_involutive, rev_app_distr, R in E. exact E.
Qed.
Lemma pow_N_Z k : Z.of_N (10 ^ N.of_nat k) = 10 ^ Z.of_nat k.
Proof. rewrite N2Z.inj_pow, nat_N_Z. reflexivity. Qed.
Lemma print_dec_ok d q : 0 < d -> exists n k j, mantissa_lex (print_dec d q) n k /\ (0 < n)%N /\
  d * 10 ^ Z.max q 0 = Z.of_N n * 10 ^ Z.of_nat j /\ 10 ^ Z.max (- q) 0 = 10 ^ Z.of_nat k * 10 ^ Z.of_nat j.
Proof.
  intros D. unfold print_dec. destruct (Z.leb_spec 0 q) as [Q|Q].
  - exists (Z.to_N d * 10 ^ N.of_nat (Z.to_nat q))%N, O, O. rewrite <- dec_zeros by lia. split; [constructor; apply num_dec|]. assert (0 < 10 ^ N.of_nat (Z.to_nat q))%N by (apply N.neq_0_lt_0, N.pow_nonzero; lia). split; [nia|].
    rewrite N2Z.inj_mul, pow_N_Z, Z2N.id, Z2Nat.id, Z.max_l, Z.max_r by lia. cbn [Z.of_nat]. change (10 ^ 0) with 1. lia.
  - set (k := Z.to_nat (- q)). assert (Ek : - q = Z.of_nat k) by lia. rewrite Z.max_r, Z.max_l by lia. rewrite Ek. set (w := 10 ^ Z.of_nat k). assert (W : 0 < w) by (apply ten_pos; lia).
    pose proof (Z.mod_pos_bound d w W) as R. pose proof (Z.div_mod d w ltac:(lia)) as Dm. assert (Dq : 0 <= d / w) by (apply Z.div_pos; lia).
    set (fr := pad k (Z.to_N (d mod w))). assert (Lf : List.length fr = k). { apply pad_length; [|lia]. apply N2Z.inj_lt. rewrite pow_N_Z, Z2N.id by lia. apply R. }
    destruct (strip_zeros_ok fr) as [j E]. set (f := strip_zeros fr) in *. pose proof (pad_digits k (Z.to_N (d mod w))) as Fd. fold fr in Fd. rewrite E, forallb_app in Fd. apply andb_true_iff in Fd as [Fd _].
    assert (V : digits_val (dec (Z.to_N (d / w)) ++ fr) = Z.to_N d). { unfold fr. rewrite digits_val_app, dec_val, pad_val. fold fr. rewrite Lf. apply N2Z.inj. rewrite N2Z.inj_add, N2Z.inj_mul, pow_N_Z, !Z2N.id by lia. fold w. lia. }
    set (n := digits_val (dec (Z.to_N (d / w)) ++ f)). assert (Vn : Z.to_N d = (n * 10 ^ N.of_nat j)%N). { rewrite <- V, E, app_assoc, digits_val_app, zeros_val, zeros_length. fold n. lia. }
    assert (Lk : k = (List.length f + j)%nat). { rewrite <- Lf. rewrite E at 1. rewrite app_length, zeros_length. reflexivity. }
    exists n, (List.length f), j. split; [|split; [|split]].
    + destruct f as [|c t] eqn:Ef; [subst n; rewrite app_nil_r; constructor; rewrite dec_val; apply num_dec|]. change (dec (Z.to_N (d / w)) ++ chr "." :: c :: t) with (dec (Z.to_N (d / w)) ++ lit "." ++ c :: t).
      eapply mant_both; [apply num_dec|apply digits_num; [discriminate|auto]|]. apply digits_num; [intros X; apply app_eq_nil in X as [_ X]; discriminate|]. rewrite forallb_app, dec_digits. auto.
    + apply N.neq_0_lt_0. intros X. rewrite X in Vn. lia.
    + change (10 ^ 0) with 1. rewrite Z.mul_1_r. rewrite <- pow_N_Z, <- N2Z.inj_mul, <- Vn, Z2N.id; lia.
    + unfold w. rewrite <- Z.pow_add_r by lia. f_equal. lia.
Qed.
(** Numbers are written as literals of themselves. *)
Lemma display_floating v : value_of binary64 v -> (forall neg, v <> S754_infinity neg) -> floating binary64 (f64_display v) v.
Proof.
  destruct v as [neg|neg| |neg m e]; intros V I.
  - unfold f64_display. replace (if neg then lit "-0" else lit "0") with ((if neg then lit "-" else []) ++ lit "0" ++ []) by (destruct neg; reflexivity).
    apply (fl_number binary64 _ neg _ 0 0 [] 0); [destruct neg; constructor|constructor; apply (num_dec 0)|constructor|]. apply of_decimal_iff. reflexivity.
  - destruct (I neg eq_refl).
  - constructor.
  - cbn [value_of] in V. unfold f64_display. pose proof (shortest_ok _ _ V 16 1 ltac:(lia) ltac:(lia)) as S. destruct (shortest 16 (Z.pos m) e (log10_floor (Z.pos m) e) 1) as [d q]. destruct S as [D S].
    destruct (print_dec_ok d q D) as (n & k & j & M & N & E1 & E2). rewrite <- (app_nil_r (print_dec d q)). apply (fl_number binary64 _ neg _ n k [] 0); auto; [destruct neg; constructor|constructor|].
    apply of_decimal_iff. unfold f64_of_decimal. destruct n as [|n]; [lia|]. replace (Z.max (0 - Z.of_nat k) 0) with 0 by lia. replace (Z.max (- (0 - Z.of_nat k)) 0) with (Z.of_nat k) by lia. change (10 ^ 0) with 1. rewrite Z.mul_1_r.
    apply reach_round; [lia|apply ten_pos; lia|auto|]. apply interval_reach in S. rewrite E1, E2 in S. apply reach_scale in S; [exact S|apply ten_pos; lia].
Qed.
Lemma display_read v : value_of binary64 v -> f64_from_str (f64_display v) = Ok v.
Proof.
  intros V. destruct v as [neg|neg| |neg m e]; try (apply from_str_iff; left; apply display_floating; [auto|discriminate]). destruct neg; reflexivity.
Qed.
Lemma valueb_iff F v : valueb F v = true <-> value_of F v.
Proof. destruct v as [| | |s m e]; cbn [valueb value_of]; try tauto. unfold representable. rewrite !andb_true_iff, orb_true_iff. lia. Qed.
Lemma nearest_value F neg a b v : nearest F neg a b v -> value_of F v.
Proof. intros []; cbn [value_of]; auto. Qed.
Lemma read_value s v : f64_from_str s = Ok v -> value_of binary64 v.
Proof.
  intros H. apply from_str_iff in H as [H|(sg & neg & w & _ & _ & [[_ ->]|[_ ->]])]; cbn; auto. destruct H; cbn; auto. eapply nearest_value; eauto.
Qed.
Lemma read_literal s v : floating binary64 s v -> f64_from_str s = Ok v.
Proof. intros. apply from_str_iff. auto. Qed.
Lemma literal_unique s v w : floating binary64 s v -> floating binary64 s w -> v = w.
Proof. intros A B. apply read_literal in A, B. congruence. Qed.

(** ** Order *)
Lemma units_order m e m' e' : representable binary64 m e -> representable binary64 m' e' -> e < e' -> units binary64 m e < units binary64 m' e'.
Proof.
  intros ([M0 M] & [E1 _] & _) ([M0' M'] & [E1' _] & N') L. unfold units. cbn [binary64 prec emin emax] in *. change (53 - 1) with 52 in N'. destruct N' as [N'|N']; [|lia].
  apply Z.lt_le_trans with (2 ^ 53 * 2 ^ (e - -1074)); [apply Z.mul_lt_mono_pos_r; [apply pow_pos; lia|auto]|]. apply Z.le_trans with (2 ^ 52 * 2 ^ (e' - -1074)); [|apply Z.mul_le_mono_nonneg_r; [apply Z.lt_le_incl, pow_pos; lia|auto]].
  rewrite <- !Z.pow_add_r by lia. apply Z.pow_le_mono_r; lia.
Qed.
Lemma units_compare m e m' e' : representable binary64 (Zpos m) e -> representable binary64 (Zpos m') e' ->
  match e ?= e' with Lt => Lt | Gt => Gt | Eq => Pos.compare_cont Eq m m' end = (units binary64 (Zpos m) e ?= units binary64 (Zpos m') e').
Proof.
  intros R R'. destruct (Z.compare_spec e e') as [<-|L|L].
  - unfold units. symmetry. rewrite !(Z.mul_comm _ (2 ^ _)). assert (P : 0 < 2 ^ (e - emin binary64)) by (apply pow_pos; destruct R as (_ & [E _] & _); cbn [binary64 emin] in *; lia). rewrite cmp_scale; auto.
  - symmetry. apply Z.compare_lt_iff. apply units_order; auto.
  - symmetry. apply Z.compare_gt_iff. apply units_order; auto.
Qed.
Lemma units_pos m e : representable binary64 (Zpos m) e -> 0 < units binary64 (Zpos m) e.
Proof. intros (_ & [E _] & _). cbn [binary64 emin] in E. apply Z.mul_pos_pos; [lia|]. apply pow_pos. cbn [binary64 emin]. lia. Qed.
Lemma cmp_order v w : value_of binary64 v -> value_of binary64 w -> f64_cmp v w = order binary64 v w.
Proof.
  unfold f64_cmp, order. destruct v as [s|s| |s m e], w as [s'|s'| |s' m' e']; cbn [value_of SFcompare extended]; intros V W; try reflexivity; try (destruct s, s'; reflexivity).
  - pose proof (units_pos _ _ W). unfold signed_units. f_equal. symmetry. destruct s'; [apply Z.compare_gt_iff|apply Z.compare_lt_iff]; lia.
  - pose proof (units_pos _ _ V). unfold signed_units. f_equal. symmetry. destruct s; [apply Z.compare_lt_iff|apply Z.compare_gt_iff]; lia.
  - pose proof (units_pos _ _ V). pose proof (units_pos _ _ W). pose proof (units_compare _ _ _ _ V W) as C. unfold signed_units. destruct s, s'; f_equal.
    +
      assert (O : forall x y, (- x ?= - y) = CompOpp (x ?= y)) by (intros x y; destruct (Z.compare_spec x y); cbn [CompOpp]; [apply Z.compare_eq_iff|apply Z.compare_gt_iff|apply Z.compare_lt_iff]; lia). rewrite O, <- C. destruct (e ?= e'); reflexivity.
    + symmetry. apply Z.compare_lt_iff. lia.
    + symmetry. apply Z.compare_gt_iff. lia.
    + rewrite <- C. destruct (e ?= e'); reflexivity.
Qed.
Lemma literal_chars F s v : floating F s v -> In s [lit "INF"; lit "-INF"; lit "NaN"] \/ exists c, In c s /\ (is_ascii_digit c = true \/ c = 46%N).
Proof.
  intros [sg neg ms n k es z w _ M _ _| | |]; [right|left; cbn; auto..]. destruct (mantissa_first _ _ _ es M) as (c & t & E & C). exists c. split; auto. apply in_or_app. right. rewrite E. left. auto.
Qed.
Lemma no_literal F s v : existsb (str_eqb s) [lit "INF"; lit "-INF"; lit "NaN"] = false -> forallb (fun c => negb (is_ascii_digit c || N.eqb c 46)) s = true -> ~ floating F s v.
Proof.
  intros A B H. apply literal_chars in H as [H|(c & I & C)].
  - assert (X : existsb (str_eqb s) [lit "INF"; lit "-INF"; lit "NaN"] = true) by (apply existsb_exists; exists s; split; auto; apply str_eqb_refl). congruence.
  - rewrite forallb_forall in B. specialize (B c I). apply negb_true_iff, orb_false_iff in B as [B1 B2]. destruct C as [C| ->]; [congruence|discriminate].
Qed.
(** Numerals have a value, and only they and the three words. *)
Lemma numeral_value sg neg ms n k es z : sign_lex sg neg -> mantissa_lex ms n k -> exponent_lex es z -> exists v, floating binary64 (sg ++ ms ++ es) v.
Proof. intros. exists (f64_of_decimal neg n (z - Z.of_nat k)). eapply fl_number; eauto. apply of_decimal_iff. auto. Qed.
Lemma same_literals F s v : floating F s v -> exists w, floating binary64 s w.
Proof. intros [sg neg ms n k es z w S M Ex _| | |]; [eapply numeral_value; eauto|eexists; constructor..]. Qed.

(** ** Single-precision numbers next to 1 *)
Lemma near_one x : a_number binary32 x -> x <= 2 ^ 149 \/ 2 ^ 149 + 2 ^ 126 <= x.
Proof.
  intros [->|(m & e & ([M0 M] & [E1 E2] & _) & ->)]; [left; apply Z.lt_le_incl, pow_pos; lia|]. unfold units. cbn [binary32 prec emin emax] in *. replace (e - -149) with (e + 149) by lia.
  destruct (Z.le_gt_cases 126 (e + 149)) as [C|C].
  - replace (m * 2 ^ (e + 149)) with (m * 2 ^ (e + 23) * 2 ^ 126) by (rewrite <- Z.mul_assoc, <- Z.pow_add_r by lia; f_equal; f_equal; lia). set (j := m * 2 ^ (e + 23)). change (2 ^ 149) with (2 ^ 23 * 2 ^ 126). destruct (Z.le_gt_cases j (2 ^ 23)) as [J|J]; [left|right].
    + apply Z.mul_le_mono_nonneg_r; [apply Z.lt_le_incl, pow_pos; lia|auto].
    + replace (2 ^ 23 * 2 ^ 126 + 2 ^ 126) with ((2 ^ 23 + 1) * 2 ^ 126) by ring. apply Z.mul_le_mono_nonneg_r; [apply Z.lt_le_incl, pow_pos; lia|lia].
  - left. change (2 ^ 149) with (2 ^ 24 * 2 ^ 125). apply Z.mul_le_mono_nonneg; [lia|lia|apply Z.lt_le_incl, pow_pos; lia|apply Z.pow_le_mono_r; lia].
Qed.
Lemma below_middle a b : 0 < b -> b * (2 ^ 24) <= a * 2 ^ 24 -> a * 2 ^ 24 < b * (2 ^ 24 + 1) -> nearest binary32 false a b (S754_finite false 8388608 (-23)).
Proof.
  intros B L H. assert (U : units binary32 8388608 (-23) = 2 ^ 149) by reflexivity. assert (P : 2 ^ 149 = 2 ^ 24 * 2 ^ 125) by reflexivity. assert (P' : 2 ^ 126 = 2 * 2 ^ 125) by reflexivity. assert (Q : 0 < 2 ^ 125) by (apply pow_pos; lia).
  assert (D : forall x, a_number binary32 x -> x = 2 ^ 149 \/ distance binary32 a b (2 ^ 149) < distance binary32 a b x).
  { intros x X. apply near_one in X. unfold distance. cbn [binary32 emin]. change (- -149) with 149. destruct (Z.eq_dec x (2 ^ 149)) as [E|E]; [auto|right]. rewrite P, P' in *. clear U P P'. revert x X E Q. generalize (2 ^ 125). intros t x X E Q.
    assert (a * 2 ^ 24 * t < b * (2 ^ 24 + 1) * t) by (apply Z.mul_lt_mono_pos_r; auto). assert (b * 2 ^ 24 * t <= a * 2 ^ 24 * t) by (apply Z.mul_le_mono_nonneg_r; lia).
    replace (a * (2 ^ 24 * t)) with (a * 2 ^ 24 * t) by ring. set (y := a * 2 ^ 24 * t) in *. clearbody y. replace (b * (2 ^ 24 * t)) with (b * 2 ^ 24 * t) by ring. replace (b * (2 ^ 24 + 1) * t) with (b * 2 ^ 24 * t + b * t) in * by ring.
    destruct X as [X|X].
    - assert (b * x < b * (2 ^ 24 * t)) by (apply Z.mul_lt_mono_pos_l; lia). replace (b * (2 ^ 24 * t)) with (b * 2 ^ 24 * t) in * by ring. lia.
    - assert (b * (2 ^ 24 * t + 2 * t) <= b * x) by (apply Z.mul_le_mono_nonneg_l; lia). replace (b * (2 ^ 24 * t + 2 * t)) with (b * 2 ^ 24 * t + 2 * (b * t)) in * by ring. lia. }
  apply near_finite.
  - unfold too_great. cbn [binary32 prec emax]. intros T. assert (X : 4 * b < (2 ^ 25 - 1) * 2 ^ 103 * b) by (apply Z.mul_lt_mono_pos_r; [auto|reflexivity]). assert (a < 4 * b) by lia. replace (b * ((2 ^ (24 + 1) - 1) * 2 ^ (104 - 1))) with ((2 ^ 25 - 1) * 2 ^ 103 * b) in T by (rewrite Z.mul_comm; reflexivity). lia.
  - split; [split; reflexivity|]. split; [split; discriminate|]. left. vm_compute. discriminate.
  - intros x X. rewrite U. destruct (D x X) as [->|Y]; lia.
  - intros x X. rewrite U. intros E. destruct (D x X) as [->|Y]; [auto|lia].
Qed.
Lemma above_middle a b : 0 < b -> b * (2 ^ 24 + 1) < a * 2 ^ 24 -> a * 2 ^ 24 <= b * (2 ^ 24 + 2) -> nearest binary32 false a b (S754_finite false 8388609 (-23)).
Proof.
  intros B L H. assert (U : units binary32 8388609 (-23) = 2 ^ 149 + 2 ^ 126) by reflexivity. assert (P : 2 ^ 149 = 2 ^ 24 * 2 ^ 125) by reflexivity. assert (P' : 2 ^ 126 = 2 * 2 ^ 125) by reflexivity. assert (Q : 0 < 2 ^ 125) by (apply pow_pos; lia).
  assert (D : forall x, a_number binary32 x -> x = 2 ^ 149 + 2 ^ 126 \/ distance binary32 a b (2 ^ 149 + 2 ^ 126) < distance binary32 a b x).
  { intros x X. apply near_one in X. unfold distance. cbn [binary32 emin]. change (- -149) with 149. destruct (Z.eq_dec x (2 ^ 149 + 2 ^ 126)) as [E|E]; [auto|right]. rewrite P, P' in *. clear U P P'. revert x X E Q. generalize (2 ^ 125). intros t x X E Q.
    assert (b * (2 ^ 24 + 1) * t < a * 2 ^ 24 * t) by (apply Z.mul_lt_mono_pos_r; auto). assert (a * 2 ^ 24 * t <= b * (2 ^ 24 + 2) * t) by (apply Z.mul_le_mono_nonneg_r; lia).
    replace (a * (2 ^ 24 * t)) with (a * 2 ^ 24 * t) by ring. set (y := a * 2 ^ 24 * t) in *. clearbody y. replace (b * (2 ^ 24 * t + 2 * t)) with (b * 2 ^ 24 * t + 2 * (b * t)) by ring. replace (b * (2 ^ 24 + 1) * t) with (b * 2 ^ 24 * t + b * t) in * by ring. replace (b * (2 ^ 24 + 2) * t) with (b * 2 ^ 24 * t + 2 * (b * t)) in * by ring.
    destruct X as [X|X].
    - assert (b * x <= b * (2 ^ 24 * t)) by (apply Z.mul_le_mono_nonneg_l; lia). replace (b * (2 ^ 24 * t)) with (b * 2 ^ 24 * t) in * by ring. lia.
    - assert (b * (2 ^ 24 * t + 2 * t) < b * x) by (apply Z.mul_lt_mono_pos_l; lia). replace (b * (2 ^ 24 * t + 2 * t)) with (b * 2 ^ 24 * t + 2 * (b * t)) in * by ring. lia. }
  apply near_finite.
  - unfold too_great. cbn [binary32 prec emax]. intros T. assert (X : 4 * b < (2 ^ 25 - 1) * 2 ^ 103 * b) by (apply Z.mul_lt_mono_pos_r; [auto|reflexivity]). assert (a < 4 * b) by lia. replace (b * ((2 ^ (24 + 1) - 1) * 2 ^ (104 - 1))) with ((2 ^ 25 - 1) * 2 ^ 103 * b) in T by (rewrite Z.mul_comm; reflexivity). lia.
  - split; [split; reflexivity|]. split; [split; discriminate|]. left. vm_compute. discriminate.
  - intros x X. rewrite U. destruct (D x X) as [->|Y]; lia.
  - intros x X. rewrite U. intros E. destruct (D x X) as [->|Y]; [auto|lia].
Qed.
