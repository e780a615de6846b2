(** Proofs about the order of durations and of dates with times. *)
From Coq Require Import Arith NArith ZArith Bool Ascii String List Lia.
From Coq Require Import Floats.SpecFloat.
From Verif Require Import Str SpecLex SpecDur SpecLibrary Dur DateTime DateProofs Order.
Import ListNotations.
Local Open Scope list_scope.
Local Open Scope Z_scope.

(** Months are as long as the calendar says. *)
Lemma leap_step y : 365 * (y + 1) + leap_days (y + 1) - (365 * y + leap_days y) = if leap y then 366 else 365.
Proof.
  unfold leap_days, leap. replace (y + 1 - 1) with y by lia.
  assert (D : forall k, 0 < k -> y / k - (y - 1) / k = if y mod k =? 0 then 1 else 0).
  { intros k K. destruct (Z.eqb_spec (y mod k) 0) as [E|E]; Z.to_euclidean_division_equations; nia. }
  assert (A := D 4 ltac:(lia)). assert (B := D 100 ltac:(lia)). assert (C := D 400 ltac:(lia)).
  destruct (Z.eqb_spec (y mod 4) 0), (Z.eqb_spec (y mod 100) 0), (Z.eqb_spec (y mod 400) 0); cbn [negb andb orb]; try lia; exfalso; Z.to_euclidean_division_equations; lia.
Qed.
Lemma month_step m : month_start (m + 1) = month_start m + days_in_month (m / 12) (m mod 12 + 1).
Proof.
  unfold month_start. assert (R := Z.mod_pos_bound m 12 ltac:(lia)).
  destruct (Z.eq_dec (m mod 12) 11) as [E|E].
  - assert (Y : (m + 1) / 12 = m / 12 + 1) by (Z.to_euclidean_division_equations; lia). assert (M : (m + 1) mod 12 = 0) by (Z.to_euclidean_division_equations; lia).
    rewrite Y, M, E. assert (L := leap_step (m / 12)).
    set (y := m / 12) in *.
    assert (T : fold_right Z.add 0 (map (fun k => days_in_month y (Z.of_nat k)) (seq 1 (Z.to_nat 11))) = if leap y then 335 else 334) by (unfold days_in_month; destruct (leap y); reflexivity).
    rewrite T. change (Z.to_nat 0) with 0%nat. cbn [seq map fold_right]. replace (days_in_month y (11 + 1)) with 31 by reflexivity. destruct (leap y); lia.
  - assert (Y : (m + 1) / 12 = m / 12) by (Z.to_euclidean_division_equations; lia). assert (M : (m + 1) mod 12 = m mod 12 + 1) by (Z.to_euclidean_division_equations; lia).
    rewrite Y, M. replace (Z.to_nat (m mod 12 + 1)) with (S (Z.to_nat (m mod 12))) by lia. rewrite seq_S, map_app.
    assert (F : forall l x, fold_right Z.add 0 (l ++ [x]) = fold_right Z.add 0 l + x) by (induction l; intros; cbn [app fold_right]; [lia|rewrite IHl; lia]).
    cbn [map]. rewrite F. replace (Z.of_nat (1 + Z.to_nat (m mod 12))) with (m mod 12 + 1) by lia. lia.
Qed.
Lemma month_days y m : 1 <= m <= 12 -> 28 <= days_in_month y m.
Proof. intros H. unfold days_in_month. destruct (leap y); repeat (match goal with |- context[if ?b then _ else _] => destruct b end; try lia). Qed.
Lemma later_month n m : m < n -> month_start m + 28 <= month_start n.
Proof.
  intros L. assert (X : forall k, month_start m + 28 <= month_start (m + 1 + Z.of_nat k)).
  { induction k as [|k IH].
    - rewrite Z.add_0_r, month_step. assert (Y := month_days (m / 12) (m mod 12 + 1) ltac:(assert (R := Z.mod_pos_bound m 12 ltac:(lia)); lia)). lia.
    - rewrite Nat2Z.inj_succ. replace (m + 1 + Z.succ (Z.of_nat k)) with (m + 1 + Z.of_nat k + 1) by lia. rewrite month_step. set (x := m + 1 + Z.of_nat k) in *.
      assert (Y := month_days (x / 12) (x mod 12 + 1) ltac:(assert (R := Z.mod_pos_bound x 12 ltac:(lia)); lia)). lia. }
  replace n with (m + 1 + Z.of_nat (Z.to_nat (n - m - 1))) by lia. apply X.
Qed.

(** Whole seconds below a minute compare as numbers. *)
Lemma seconds_compare a b : (a < 60)%N -> (b < 60)%N -> SFcompare (b64_of_N a) (b64_of_N b) = Some (a ?= b)%N.
Proof.
  intros A B.
  assert (X : forallb (fun x => forallb (fun y => match SFcompare (b64_of_N x) (b64_of_N y), (x ?= y)%N with Some Lt, Lt | Some Eq, Eq | Some Gt, Gt => true | _, _ => false end) (map N.of_nat (seq 0 60))) (map N.of_nat (seq 0 60)) = true) by (vm_compute; reflexivity).
  assert (I : forall x, (x < 60)%N -> In x (map N.of_nat (seq 0 60))) by (intros x Hx; apply in_map_iff; exists (N.to_nat x); split; [lia|apply in_seq; lia]).
  rewrite forallb_forall in X. specialize (X a (I a A)). rewrite forallb_forall in X. specialize (X b (I b B)).
  destruct (SFcompare _ _) as [[]|], (a ?= b)%N; try discriminate X; reflexivity.
Qed.

(** Durations in normal form: no sign, fields below those of the next larger unit, whole seconds. *)
Definition normal (x : duration) (s : N) : Prop :=
  d_neg x = false /\ (d_months x < 12 /\ d_days x < 28 /\ d_hours x < 24 /\ d_minutes x < 60 /\ s < 60)%N /\ d_seconds x = b64_of_N s.
Definition dspan (x : duration) (s : N) : span := span_of (d_neg x) (d_years x) (d_months x) (d_days x) (d_hours x) (d_minutes x) s.

Lemma less_shorter a b : months a < months b /\ seconds a - seconds b < 28 * 86400 \/ months a = months b /\ seconds a < seconds b -> shorter a b.
Proof.
  intros H r _. unfold moment. destruct H as [[M S]|[M S]].
  - assert (L := later_month (r + months b) (r + months a) ltac:(lia)). lia.
  - rewrite M. lia.
Qed.
Lemma shorter_irrefl a b : shorter a b -> shorter b a -> False.
Proof. intros H K. specialize (H _ (or_introl eq_refl)). specialize (K _ (or_introl eq_refl)). lia. Qed.
Lemma order_normal a b s t : normal a s -> normal b t ->
  match dur_cmp a b with Some Lt => shorter (dspan a s) (dspan b t) | Some Eq => dspan a s = dspan b t | Some Gt => shorter (dspan b t) (dspan a s) | None => False end.
Proof.
  intros (N1 & (A1 & A2 & A3 & A4 & A5) & S1) (N2 & (B1 & B2 & B3 & B4 & B5) & S2). unfold dur_cmp, dspan, span_of, signed. rewrite N1, N2, S1, S2, seconds_compare by auto. cbn [bool_cmp then_cmp].
  destruct (N.compare_spec (d_years a) (d_years b)) as [Y|Y|Y]; cbn [then_cmp]; [|apply less_shorter; cbn [months seconds]; lia..].
  destruct (N.compare_spec (d_months a) (d_months b)) as [M|M|M]; cbn [then_cmp]; [|apply less_shorter; cbn [months seconds]; lia..].
  destruct (N.compare_spec (d_days a) (d_days b)) as [D|D|D]; cbn [then_cmp]; [|apply less_shorter; cbn [months seconds]; lia..].
  destruct (N.compare_spec (d_hours a) (d_hours b)) as [H|H|H]; cbn [then_cmp]; [|apply less_shorter; cbn [months seconds]; lia..].
  destruct (N.compare_spec (d_minutes a) (d_minutes b)) as [I|I|I]; cbn [then_cmp]; [|apply less_shorter; cbn [months seconds]; lia..].
  destruct (N.compare_spec s t) as [E|E|E]; [|apply less_shorter; cbn [months seconds]; lia..].
  f_equal; lia.
Qed.
Lemma duration_order a b s t : normal a s -> normal b t ->
  (dur_cmp a b = Some Lt <-> shorter (dspan a s) (dspan b t)) /\ (dur_cmp a b = Some Gt <-> shorter (dspan b t) (dspan a s)) /\
  (dur_cmp a b = Some Eq <-> dspan a s = dspan b t).
Proof.
  intros A B. assert (X := order_normal a b s t A B). assert (I : forall d, ~ shorter d d) by (intros d H; exact (shorter_irrefl _ _ H H)).
  destruct (dur_cmp a b) as [[]|]; [..|destruct X].
  - rewrite X. split; [|split; [|tauto]]; split; intros H; try discriminate; destruct (I _ H).
  - split; [|split]; split; intros H; try discriminate; auto; exfalso; first [exact (shorter_irrefl _ _ H X)|rewrite H in X; exact (I _ X)].
  - split; [|split]; split; intros H; try discriminate; auto; exfalso; first [exact (shorter_irrefl _ _ H X)|rewrite H in X; exact (I _ X)].
Qed.

(** Comparing the other way round; signs. *)
Lemma sf_antisym x y : SFcompare y x = option_map CompOpp (SFcompare x y).
Proof.
  destruct x as [sx|sx| |sx mx ex], y as [sy|sy| |sy my ey]; try destruct sx; try destruct sy; cbn [SFcompare option_map CompOpp]; auto.
  - rewrite (Z.compare_antisym ex ey). destruct (ex ?= ey)%Z; cbn [CompOpp]; auto. rewrite (Pos.compare_cont_antisym mx my Eq). cbn [CompOpp]. destruct (Pos.compare_cont Eq my mx); auto.
  - rewrite (Z.compare_antisym ex ey). destruct (ex ?= ey)%Z; cbn [CompOpp]; auto. rewrite (Pos.compare_cont_antisym mx my Eq). cbn [CompOpp]. destruct (Pos.compare_cont Eq my mx); auto.
Qed.
Lemma dur_antisym a b : dur_cmp b a = option_map CompOpp (dur_cmp a b).
Proof.
  unfold dur_cmp. assert (T : forall x x' y y', x' = option_map CompOpp x -> y' = option_map CompOpp y -> then_cmp x' y' = option_map CompOpp (then_cmp x y)).
  { intros [[]|] x' y y' -> ->; auto. }
  repeat apply T; try (cbn [option_map]; rewrite <- N.compare_antisym; auto); [destruct (d_neg a), (d_neg b); auto|apply sf_antisym].
Qed.
Lemma dur_signs a b : d_neg a = true -> d_neg b = false -> dur_cmp a b = Some Gt /\ dur_cmp b a = Some Lt.
Proof. intros A B. unfold dur_cmp. rewrite A, B. auto. Qed.

(** ** Dates with times *)
Definition year_start (y : Z) : Z := 365 * y + leap_days y.
Lemma year_step y : year_start (y + 1) = year_start y + year_days y.
Proof. unfold year_start, year_days. rewrite leap_same. assert (L := leap_step y). destruct (leap y); lia. Qed.
Lemma year_days_pos y : 365 <= year_days y.
Proof. unfold year_days. destruct (leap_year y); lia. Qed.
Lemma later_year y y' : y < y' -> year_start y + year_days y <= year_start y'.
Proof.
  intros L. assert (X : forall k, year_start y + year_days y <= year_start (y + 1 + Z.of_nat k)).
  { induction k as [|k IH].
    - rewrite Z.add_0_r, year_step. lia.
    - rewrite Nat2Z.inj_succ. replace (y + 1 + Z.succ (Z.of_nat k)) with (y + 1 + Z.of_nat k + 1) by lia. rewrite year_step. assert (Y := year_days_pos (y + 1 + Z.of_nat k)). lia. }
  replace y' with (y + 1 + Z.of_nat (Z.to_nat (y' - y - 1))) by lia. apply X.
Qed.
Lemma month_begins y m : 1 <= m <= 12 -> month_start (12 * y + m - 1) = year_start y + days_before y m.
Proof.
  intros H. unfold month_start, days_before, year_start. cbv zeta.
  replace ((12 * y + m - 1) / 12) with y by (Z.to_euclidean_division_equations; lia). replace ((12 * y + m - 1) mod 12) with (m - 1) by (Z.to_euclidean_division_equations; lia).
  f_equal. f_equal. apply map_ext_in. intros k I. apply in_seq in I. symmetry. apply month_length_ok. lia.
Qed.
Lemma days_in_year y m d : 1 <= m <= 12 -> 1 <= d <= days_in_month y m -> 1 <= days_before y m + d <= year_days y.
Proof.
  intros H D. assert (C : m = 1 \/ m = 2 \/ m = 3 \/ m = 4 \/ m = 5 \/ m = 6 \/ m = 7 \/ m = 8 \/ m = 9 \/ m = 10 \/ m = 11 \/ m = 12) by lia.
  unfold days_in_month in D. unfold year_days, days_before, month_length. rewrite <- leap_same in D.
  destruct (leap_year y) in *; destruct C as [C|[C|[C|[C|[C|[C|[C|[C|[C|[C|[C|C]]]]]]]]]]]; subst m; match type of D with _ <= _ <= ?e => let v := eval vm_compute in e in change e with v in D end;
    match goal with |- context[fold_right ?f ?a ?l] => let v := eval vm_compute in (fold_right f a l) in change (fold_right f a l) with v end; lia.
Qed.

Definition proper (v : datetime) : Prop :=
  proper_moment (n_year (dt_date v)) (n_month (dt_date v)) (n_day (dt_date v)) (n_hour (dt_time v)) (n_min (dt_time v)) (n_sec (dt_time v)) (n_nano (dt_time v)) (dt_off v) = true.
Definition when (v : datetime) : Z :=
  instant (n_year (dt_date v)) (n_month (dt_date v)) (n_day (dt_date v)) (n_hour (dt_time v)) (n_min (dt_time v)) (n_sec (dt_time v)) (n_nano (dt_time v)) (dt_off v).
Lemma utc_ok v : proper v -> let '(y, o, s) := utc v in 1 <= o <= year_days y /\ 0 <= s < 86400 /\ 0 <= n_nano (dt_time v) < 10 ^ 9 /\
  when v = (86400 * (year_start y + o - 1) + s) * 10 ^ 9 + n_nano (dt_time v).
Proof.
  unfold proper, when, utc, proper_moment, instant. destruct v as [[y m d] [h mi sec nano] z]. cbn [dt_date dt_time dt_off n_year n_month n_day n_hour n_min n_sec n_nano forallb fst snd].
  intros H. repeat match type of H with (_ && _)%bool = true => let X := fresh "X" in apply andb_true_iff in H as [X H]; apply andb_true_iff in X as [? X] end.
  assert (M : 1 <= m <= 12) by lia. rewrite (month_begins y m M). assert (D := days_in_year y m d M ltac:(lia)). set (o := days_before y m + d) in *. replace (days_before y m) with (o - d) by lia. clearbody o.
  destruct (Z.ltb_spec (3600 * h + 60 * mi + sec - z) 0) as [A|A]; [|destruct (Z.leb_spec 86400 (3600 * h + 60 * mi + sec - z)) as [B|B]].
  - destruct (Z.eqb_spec o 1) as [E|E].
    + assert (Y := year_step (y - 1)). replace (y - 1 + 1) with y in Y by lia. assert (P := year_days_pos (y - 1)). split; [lia|]. split; [lia|]. split; [lia|]. lia.
    + split; [lia|]. split; [lia|]. split; [lia|]. lia.
  - destruct (Z.eqb_spec o (year_days y)) as [E|E].
    + assert (Y := year_step y). assert (P := year_days_pos (y + 1)). split; [lia|]. split; [lia|]. split; [lia|]. lia.
    + split; [lia|]. split; [lia|]. split; [lia|]. lia.
  - split; [lia|]. split; [lia|]. split; [lia|]. lia.
Qed.
Lemma moment_order a b : proper a -> proper b -> dt_cmp a b = Some (when a ?= when b).
Proof.
  intros A B. apply utc_ok in A, B. unfold dt_cmp. destruct (utc a) as [[y o] s], (utc b) as [[y' o'] s']. destruct A as (A1 & A2 & A3 & ->), B as (B1 & B2 & B3 & ->).
  set (n := n_nano (dt_time a)) in *. set (n' := n_nano (dt_time b)) in *. clearbody n n'.
  destruct (Z.compare_spec y y') as [Y|Y|Y]; cbn [then_cmp]; [subst y'|assert (L := later_year _ _ Y); f_equal; symmetry; apply Z.compare_lt_iff; lia|assert (L := later_year _ _ Y); f_equal; symmetry; apply Z.compare_gt_iff; lia].
  destruct (Z.compare_spec o o') as [O|O|O]; cbn [then_cmp]; [subst o'|f_equal; symmetry; apply Z.compare_lt_iff; lia|f_equal; symmetry; apply Z.compare_gt_iff; lia].
  destruct (Z.compare_spec s s') as [S|S|S]; cbn [then_cmp]; [subst s'|f_equal; symmetry; apply Z.compare_lt_iff; lia|f_equal; symmetry; apply Z.compare_gt_iff; lia].
  f_equal. destruct (Z.compare_spec n n') as [E|E|E]; symmetry; [apply Z.compare_eq_iff|apply Z.compare_lt_iff|apply Z.compare_gt_iff]; lia.
Qed.
