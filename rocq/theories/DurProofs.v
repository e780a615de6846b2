(** Proofs about the duration parser and printer. *)
From Coq Require Import List NArith ZArith Bool Ascii String Lia ZifyBool ZifyNat ZifyN.
From Coq Require Import Floats.SpecFloat.
From Verif Require Import Str StrFacts SpecLex TzProofs SpecDur Dur.
Import ListNotations.
Local Open Scope N_scope.

Lemma two64_eq : 2 ^ 64 = two64. Proof. reflexivity. Qed.
Global Opaque two64.
Lemma two64_pos : 0 < two64. Proof. rewrite <- two64_eq. apply N.neq_0_lt_0, N.pow_nonzero. lia. Qed.
Lemma two64_big : 100 < two64. Proof. rewrite <- two64_eq. reflexivity. Qed.
Local Hint Resolve two64_pos two64_big : core.

(** ** u64 digit accumulation *)
Lemma wrap_step chk n d : n < two64 -> d < 10 ->
  bind (u64_mul chk n 10) (fun n1 => u64_add chk n1 d) = u64_wrap chk (n * 10 + d).
Proof.
  intros Hn Hd. unfold u64_mul, u64_add, u64_wrap. pose proof two64_big as HB.
  destruct (n * 10 <? two64) eqn:E1; cbn [bind].
  - reflexivity.
  - assert ((n * 10 + d <? two64) = false) as -> by lia.
    destruct chk; cbn [bind]; auto.
    destruct (n * 10 mod two64 + d <? two64) eqn:E2.
    + f_equal. rewrite <- (N.add_mod_idemp_l (n * 10) d) by lia.
      symmetry. apply N.mod_small. lia.
    + f_equal. rewrite N.add_mod_idemp_l by lia. auto.
Qed.

Lemma wrap_lt chk n v : u64_wrap chk n = Ok v -> v < two64.
Proof.
  unfold u64_wrap. destruct (n <? two64) eqn:E; [intros [= <-]; lia|].
  destruct chk; [discriminate|]. intros [= <-]. apply N.mod_lt. pose proof two64_pos; lia.
Qed.
Lemma wrap_fits chk n : n < two64 -> u64_wrap chk n = Ok n.
Proof. unfold u64_wrap. intros H. rewrite (proj2 (N.ltb_lt _ _) H). auto. Qed.
Lemma wrap_big n : two64 <= n -> u64_wrap true n = Panic.
Proof. unfold u64_wrap. intros H. rewrite (proj2 (N.ltb_ge _ _) H). auto. Qed.
Lemma wrap_false n : u64_wrap false n = Ok (n mod two64).
Proof.
  unfold u64_wrap. destruct (n <? two64) eqn:E; auto.
  rewrite N.mod_small; auto. lia.
Qed.
Lemma wrap_true n v : u64_wrap true n = Ok v -> v = n /\ n < two64.
Proof. unfold u64_wrap. destruct (n <? two64) eqn:E; [intros [= <-]; lia|discriminate]. Qed.

Lemma wrap_pow chk n p r : 1 <= p ->
  bind (u64_wrap chk n) (fun n' => u64_wrap chk (n' * p + r)) = u64_wrap chk (n * p + r).
Proof.
  intros Hp. destruct chk.
  - destruct (N.lt_ge_cases n two64) as [H|H].
    + rewrite (wrap_fits _ n); auto.
    + rewrite (wrap_big n), wrap_big; auto. nia.
  - rewrite !wrap_false. cbn [bind]. rewrite wrap_false. f_equal.
    pose proof two64_pos.
    rewrite <- (N.add_mod_idemp_l (n mod two64 * p)), N.mul_mod_idemp_l by lia.
    rewrite N.add_mod_idemp_l by lia. auto.
Qed.

Lemma bind_assoc {A B D} (r : res A) (f : A -> res B) (g : B -> res D) :
  bind (bind r f) g = bind r (fun a => bind (f a) g).
Proof. destruct r; auto. Qed.

(** ** The loop after "-?P" *)
Definition bstep chk ch st := step chk 2 ch st.
Fixpoint brun (chk : bool) (s : str) (st : state) : res state :=
  match s with
  | [] => Ok st
  | ch :: s' => bind (bstep chk ch st) (brun chk s')
  end.

Lemma run_brun chk s : forall i st, (2 <= i)%nat -> run chk i s st = brun chk s st.
Proof.
  induction s as [|c s IH]; intros i st Hi; [reflexivity|].
  cbn [run brun]. unfold bstep.
  assert (step chk i c st = step chk 2 c st) as ->.
  { destruct i as [|[|i]]; [lia|lia|]. reflexivity. }
  destruct (step chk 2 c st); cbn [bind]; auto.
Qed.

Lemma run_brun1 chk s st : d_neg (snd st) = false -> run chk 1 s st = brun chk s st.
Proof.
  intros H. destruct s as [|c s]; [reflexivity|]. cbn [run brun].
  assert (step chk 1 c st = step chk 2 c st) as E.
  { destruct st as [cc d]. cbn in H. unfold step. rewrite H. reflexivity. }
  rewrite E. unfold bstep. destruct (step chk 2 c st); cbn [bind]; auto.
  apply run_brun; lia.
Qed.

Lemma brun_app chk a b st : brun chk (a ++ b) st = bind (brun chk a st) (brun chk b).
Proof.
  revert st; induction a as [|c a IH]; intros st; [reflexivity|].
  cbn [app brun]. destruct (bstep chk c st); cbn [bind]; auto.
Qed.

(** Contexts after the 'P'. *)
Definition K (t : bool) (k n : N) (e dot : bool) (nu de : N) : ctx :=
  {| is_p := true; is_t := t; lastf := k; number := n; is_empty_n := e; is_dot := dot;
     numer := nu; denom := de |}.

Lemma digit_not c x : is_ascii_digit c = true -> is_ascii_digit x = false -> (c =? x) = false.
Proof. intros H1 H2. destruct (c =? x) eqn:E; auto. apply N.eqb_eq in E; subst. congruence. Qed.

Lemma bstep_digit chk c st : is_ascii_digit c = true -> bstep chk c st = step_digit chk c st.
Proof.
  intros H. unfold bstep, step. destruct st as [cc d].
  rewrite !(digit_not c) by (auto; reflexivity). reflexivity.
Qed.

Lemma is_digit_lt c : is_ascii_digit c = true -> digit_val c < 10.
Proof. unfold is_ascii_digit, digit_val. lia. Qed.

Lemma brun_digits chk ds : forall t k n e nu de d, n < two64 -> ds <> [] ->
  forallb is_ascii_digit ds = true ->
  brun chk ds (K t k n e false nu de, d) =
  bind (u64_wrap chk (n * 10 ^ N.of_nat (List.length ds) + digits_val ds))
       (fun n' => Ok (K t k n' false false nu de, d)).
Proof.
  induction ds as [|c ds IH]; intros t k n e nu de d Hn Hne Hd; [congruence|].
  cbn [forallb] in Hd. apply andb_prop in Hd as [Hc Hds].
  cbn [brun]. rewrite bstep_digit by auto.
  assert (step_digit chk c (K t k n e false nu de, d) =
          bind (u64_wrap chk (n * 10 + digit_val c))
               (fun n' => Ok (K t k n' false false nu de, d))) as ->.
  { rewrite <- wrap_step by (auto using is_digit_lt). unfold step_digit, K.
    cbn [is_dot number]. rewrite Hc. cbn [negb].
    destruct (u64_mul chk n 10); cbn [bind]; auto. }
  rewrite bind_assoc. cbn [bind].
  destruct ds as [|c' ds'].
  { cbn [brun List.length]. rewrite digits_val_cons. cbn [List.length].
    change (digits_val []) with 0. change (10 ^ N.of_nat 0) with 1.
    change (10 ^ N.of_nat 1) with 10. do 2 f_equal. lia. }
  remember (c' :: ds') as ds eqn:Eds.
  assert (ds <> []) as Hne' by (subst; discriminate).
  rewrite digits_val_cons. cbn [List.length]. rewrite Nat2N.inj_succ, N.pow_succ_r'.
  replace (n * (10 * 10 ^ N.of_nat (List.length ds)) +
    (digit_val c * 10 ^ N.of_nat (List.length ds) + digits_val ds))
    with ((n * 10 + digit_val c) * 10 ^ N.of_nat (List.length ds) + digits_val ds) by lia.
  rewrite <- (wrap_pow chk (n * 10 + digit_val c) (10 ^ N.of_nat (List.length ds)))
    by (assert (10 ^ N.of_nat (List.length ds) <> 0) by (apply N.pow_nonzero; lia); lia).
  rewrite bind_assoc.
  destruct (u64_wrap chk (n * 10 + digit_val c)) eqn:E; cbn [bind]; auto.
  apply IH; auto. eapply wrap_lt; eauto.
Qed.

Lemma wrap_mul chk n p : 1 <= p ->
  bind (u64_wrap chk n) (fun n' => u64_wrap chk (n' * p)) = u64_wrap chk (n * p).
Proof.
  intros Hp. pose proof (wrap_pow chk n p 0 Hp) as H. rewrite N.add_0_r in H. rewrite <- H.
  destruct (u64_wrap chk n); cbn [bind]; auto. f_equal. lia.
Qed.

Lemma brun_fraction chk ds : forall t k n e nu de d, nu < two64 -> de < two64 ->
  forallb is_ascii_digit ds = true ->
  brun chk ds (K t k n e true nu de, d) =
  bind (u64_wrap chk (nu * 10 ^ N.of_nat (List.length ds) + digits_val ds)) (fun nu' =>
  bind (u64_wrap chk (de * 10 ^ N.of_nat (List.length ds))) (fun de' =>
    Ok (K t k n e true nu' de', d))).
Proof.
  induction ds as [|c ds IH]; intros t k n e nu de d Hn Hde Hd.
  { cbn [brun List.length]. change (10 ^ N.of_nat 0) with 1. change (digits_val []) with 0.
    rewrite !N.mul_1_r, N.add_0_r. rewrite !wrap_fits by auto. reflexivity. }
  cbn [forallb] in Hd. apply andb_prop in Hd as [Hc Hds].
  cbn [brun]. rewrite bstep_digit by auto.
  assert (step_digit chk c (K t k n e true nu de, d) =
          bind (u64_wrap chk (nu * 10 + digit_val c)) (fun nu' =>
          bind (u64_wrap chk (de * 10)) (fun de' =>
            Ok (K t k n e true nu' de', d)))) as ->.
  { rewrite <- wrap_step by (auto using is_digit_lt). unfold step_digit, K.
    cbn [is_dot number numer denom]. rewrite Hc. cbn [negb].
    destruct (u64_mul chk nu 10); cbn [bind]; auto. }
  rewrite digits_val_cons. cbn [List.length]. rewrite Nat2N.inj_succ, N.pow_succ_r'.
  set (p := 10 ^ N.of_nat (List.length ds)).
  assert (1 <= p) as Hp by (assert (p <> 0) by (apply N.pow_nonzero; lia); lia).
  replace (nu * (10 * p) + (digit_val c * p + digits_val ds))
    with ((nu * 10 + digit_val c) * p + digits_val ds) by lia.
  replace (de * (10 * p)) with ((de * 10) * p) by lia.
  rewrite <- (wrap_pow chk (nu * 10 + digit_val c) p), <- (wrap_mul chk (de * 10) p) by auto.
  destruct (u64_wrap chk (nu * 10 + digit_val c)) as [nu'| |] eqn:E1; cbn [bind]; auto.
  destruct (u64_wrap chk (de * 10)) as [de'| |] eqn:E2; cbn [bind].
  - rewrite IH; auto; eapply wrap_lt; eauto.
  - unfold u64_wrap in E2. destruct (_ <? _), chk; discriminate.
  - unfold u64_wrap. destruct (_ <? _), chk; auto; rewrite wrap_false in E2; discriminate.
Qed.

(** ** Completeness *)
Lemma num_facts s n : num s n -> s <> [] /\ forallb is_ascii_digit s = true /\ digits_val s = n.
Proof. apply num_iff. Qed.

Lemma brun_num chk s n rest t k e nu de d : num s n ->
  brun chk (s ++ rest) (K t k 0 e false nu de, d) =
  bind (u64_wrap chk n) (fun v => brun chk rest (K t k v false false nu de, d)).
Proof.
  intros H. apply num_facts in H as (H1 & H2 & <-). rewrite brun_app, brun_digits by auto.
  rewrite N.mul_0_l, N.add_0_l, bind_assoc. reflexivity.
Qed.

(** [setter] applied to an optional component *)
Definition upd (set : duration -> N -> duration) (o : option N) (d : duration) : duration :=
  match o with Some v => set d v | None => d end.

Definition owrap chk (o : option N) : res (option N) :=
  match o with None => Ok None | Some n => bind (u64_wrap chk n) (fun v => Ok (Some v)) end.

Lemma brun_comp chk c idx t set s o rest k nu de d :
  opt_comp c s o -> k < idx ->
  (forall v, bstep chk c (K t k v false false nu de, d) =
             Ok (K t idx 0 true false nu de, set d v)) ->
  brun chk (s ++ rest) (K t k 0 true false nu de, d) =
  bind (owrap chk o) (fun v =>
    brun chk rest (K t (match v with None => k | Some _ => idx end) 0 true false nu de, upd set v d)).
Proof.
  intros H Hk Hs. destruct H as [|s n Hn].
  - reflexivity.
  - rewrite <- app_assoc, (brun_num _ _ _ _ _ _ _ _ _ _ Hn). cbn [owrap].
    rewrite bind_assoc. destruct (u64_wrap chk n); cbn [bind]; auto.
    cbn [app brun]. rewrite Hs. reflexivity.
Qed.

Ltac bs := unfold bstep, step, K, fill_component; cbn [is_t number is_empty_n is_dot lastf numer denom is_p].

Lemma st_Y chk k v nu de d : k < 1 -> bstep chk (chr "Y") (K false k v false false nu de, d)
  = Ok (K false 1 0 true false nu de, set_years d v).
Proof. intros H. bs. cbn. assert ((1 <=? k) = false) as -> by lia. reflexivity. Qed.
Lemma st_M1 chk k v nu de d : k < 2 -> bstep chk (chr "M") (K false k v false false nu de, d)
  = Ok (K false 2 0 true false nu de, set_months d v).
Proof. intros H. bs. cbn. assert ((2 <=? k) = false) as -> by lia. reflexivity. Qed.
Lemma st_D chk k v nu de d : k < 3 -> bstep chk (chr "D") (K false k v false false nu de, d)
  = Ok (K false 3 0 true false nu de, set_days d v).
Proof. intros H. bs. cbn. assert ((3 <=? k) = false) as -> by lia. reflexivity. Qed.
Lemma st_H chk k v nu de d : k < 4 -> bstep chk (chr "H") (K true k v false false nu de, d)
  = Ok (K true 4 0 true false nu de, set_hours d v).
Proof. intros H. bs. cbn. assert ((4 <=? k) = false) as -> by lia. reflexivity. Qed.
Lemma st_M2 chk k v nu de d : k < 5 -> bstep chk (chr "M") (K true k v false false nu de, d)
  = Ok (K true 5 0 true false nu de, set_minutes d v).
Proof. intros H. bs. cbn. assert ((5 <=? k) = false) as -> by lia. reflexivity. Qed.
Lemma st_T chk k n e dot nu de d : n = 0 -> bstep chk (chr "T") (K false k n e dot nu de, d)
  = Ok (K true 3 n e dot nu de, d).
Proof. intros ->. reflexivity. Qed.
Lemma st_dot chk t k n nu de d : bstep chk (chr ".") (K t k n false false nu de, d)
  = Ok (K t k n false true nu de, d).
Proof. reflexivity. Qed.
Lemma st_S chk k n dot nu de d : k < 6 -> (dot = true -> de <> 1) ->
  bstep chk (chr "S") (K true k n false dot nu de, d)
  = Ok (K true 6 0 true dot nu de,
        set_seconds d (f64_add (f64_of_N n) (f64_div (f64_of_N nu) (f64_of_N de)))).
Proof.
  intros H Hd. bs. unfold fill_seconds.
  cbn [is_t number is_empty_n is_dot lastf numer denom is_p].
  cbn. assert ((6 <=? k) = false) as -> by lia.
  assert (dot && (de =? 1) = false) as ->.
  { destruct dot; auto. specialize (Hd eq_refl). cbn. lia. }
  reflexivity.
Qed.

(** Seconds of a literal *)
Definition swrap chk (o : option (N * N * nat)) : res (option (N * N * N)) :=
  match o with
  | None => Ok None
  | Some (n, m, k) =>
    bind (u64_wrap chk n) (fun n' => bind (u64_wrap chk m) (fun m' =>
    bind (u64_wrap chk (10 ^ N.of_nat k)) (fun de => Ok (Some (n', m', de)))))
  end.

Definition sec_upd (o : option (N * N * N)) (d : duration) : duration :=
  match o with
  | None => d
  | Some (n, m, de) =>
    set_seconds d (f64_add (f64_of_N n) (f64_div (f64_of_N m) (f64_of_N de)))
  end.

Lemma pow10_mod_even k : (1 <= k)%nat -> 10 ^ N.of_nat k mod two64 <> 1.
Proof.
  intros Hk H. destruct k as [|k]; [lia|].
  rewrite Nat2N.inj_succ, N.pow_succ_r' in H. rewrite <- two64_eq in H.
  pose proof (N.div_mod (10 * 10 ^ N.of_nat k) (2 ^ 64) ltac:(discriminate)) as E.
  rewrite H in E. change (2 ^ 64) with (2 * 2 ^ 63) in E.
  set (q := 10 * 10 ^ N.of_nat k / (2 * 2 ^ 63)) in E. clearbody q.
  set (p := 10 ^ N.of_nat k) in *. clearbody p.
  assert (2 * (5 * p) = 2 * (2 ^ 63 * q) + 1) by lia. lia.
Qed.

(** does the literal have a fraction? *)
Definition sdot (o : option (N * N * nat)) : bool :=
  match o with Some (_, _, S _) => true | _ => false end.

Lemma brun_sec chk s o k d : opt_sec s o -> k < 6 ->
  brun chk s (K true k 0 true false 0 1, d) =
  bind (swrap chk o) (fun v => Ok (
    match v with
    | None => K true k 0 true false 0 1
    | Some (n, m, de) => K true 6 0 true (sdot o) m de
    end, sec_upd v d)).
Proof.
  intros H Hk. destruct H as [|s n Hn|s n f m Hn Hf].
  - reflexivity.
  - rewrite (brun_num _ _ _ _ _ _ _ _ _ _ Hn). cbn [swrap].
    rewrite !bind_assoc. destruct (u64_wrap chk n); cbn [bind]; auto.
    rewrite !wrap_fits by (pose proof two64_big; lia). cbn [bind].
    change (lit "S") with [chr "S"]. cbn [brun].
    rewrite st_S by (auto; discriminate). cbn [bind].
    reflexivity.
  - rewrite (brun_num _ _ _ _ _ _ _ _ _ _ Hn). cbn [swrap].
    rewrite !bind_assoc. destruct (u64_wrap chk n) as [n'| |]; cbn [bind]; auto.
    change (lit ".") with [chr "."]. change (lit "S") with [chr "S"].
    cbn [app brun]. rewrite st_dot. cbn [bind].
    apply num_facts in Hf as (Hf1 & Hf2 & <-).
    rewrite brun_app, brun_fraction by (auto; pose proof two64_big; lia).
    rewrite N.mul_0_l, N.add_0_l, N.mul_1_l. rewrite !bind_assoc.
    destruct (u64_wrap chk (digits_val f)) as [m'| |]; cbn [bind]; auto.
    rewrite !bind_assoc.
    destruct (u64_wrap chk (10 ^ N.of_nat (List.length f))) as [de| |] eqn:Ede; cbn [bind]; auto.
    assert (1 <= List.length f)%nat as Hl by (destruct f; [congruence|cbn; lia]).
    cbn [brun]. rewrite st_S; auto.
    { destruct f; [congruence|]. reflexivity. }
    intros _ ->.
    pose proof (pow10_mod_even _ Hl) as Hev. destruct chk.
    + apply wrap_true in Ede as [E1 E2]. rewrite <- E1 in *. apply Hev, N.mod_small; auto.
    + rewrite wrap_false in Ede. injection Ede. auto.
Qed.

(** ** Values *)
Definition value_of (l : dlit) : duration :=
  {| d_neg := l_neg l; d_years := comp (l_years l); d_months := comp (l_months l);
     d_days := comp (l_days l); d_hours := comp (l_hours l); d_minutes := comp (l_minutes l);
     d_seconds := sec_value (l_sec l) |}.

(** The same with every number reduced modulo 2^64. *)
Definition sec_value_mod (o : option (N * N * nat)) : f64 :=
  match o with
  | None => S754_zero false
  | Some (n, m, O) => b64_of_N (n mod 2 ^ 64)
  | Some (n, m, k) => b64_plus (b64_of_N (n mod 2 ^ 64))
      (b64_div (b64_of_N (m mod 2 ^ 64)) (b64_of_N (10 ^ N.of_nat k mod 2 ^ 64)))
  end.
Definition value_mod (l : dlit) : duration :=
  {| d_neg := l_neg l; d_years := comp (l_years l) mod 2 ^ 64;
     d_months := comp (l_months l) mod 2 ^ 64; d_days := comp (l_days l) mod 2 ^ 64;
     d_hours := comp (l_hours l) mod 2 ^ 64; d_minutes := comp (l_minutes l) mod 2 ^ 64;
     d_seconds := sec_value_mod (l_sec l) |}.

Lemma binary_round_aux_sign pr em mx ex lx : binary_round_aux pr em false mx ex lx <> S754_zero true.
Proof.
  unfold binary_round_aux. destruct (shr_fexp _ _ _ _ _) as [mr e'].
  destruct (shr_fexp _ _ _ _ _) as [mr2 e2]. destruct (shr_m mr2); try discriminate.
  destruct (_ <=? _)%Z; discriminate.
Qed.
Lemma b64_of_N_sign n : b64_of_N n <> S754_zero true.
Proof.
  unfold b64_of_N, binary_normalize. destruct (Z.of_N n) eqn:E; [discriminate| |lia].
  unfold binary_round. destruct (shl_align _ _ _). apply binary_round_aux_sign.
Qed.
Lemma add_zero x : x <> S754_zero true -> b64_plus x (S754_zero false) = x.
Proof. destruct x as [[|]|[|]| |]; intros H; try congruence; reflexivity. Qed.
Lemma add_zero_div n : f64_add (f64_of_N n) (f64_div (f64_of_N 0) (f64_of_N 1)) = b64_of_N n.
Proof.
  change (f64_div (f64_of_N 0) (f64_of_N 1)) with (S754_zero false).
  apply add_zero, b64_of_N_sign.
Qed.

Definition neg_dur (b : bool) : duration := if b then set_neg dur_default else dur_default.

Lemma from_str_prefix chk (b : bool) body :
  dur_from_str chk ((if b then lit "-" else []) ++ lit "P" ++ body) =
  bind (brun chk body (K false 0 0 true false 0 1, neg_dur b)) finish.
Proof.
  destruct b.
  - change (lit "-" ++ lit "P" ++ body) with (45 :: 80 :: body).
    unfold dur_from_str. cbn [run].
    change (step chk 0 45 (ctx_new, dur_default)) with (Ok (ctx_new, set_neg dur_default)).
    cbn [bind]. change (step chk 1 80 (ctx_new, set_neg dur_default)) with
      (Ok (K false 0 0 true false 0 1, set_neg dur_default)).
    cbn [bind]. rewrite run_brun by lia. reflexivity.
  - change ([] ++ lit "P" ++ body) with (80 :: body).
    unfold dur_from_str. cbn [run].
    change (step chk 0 80 (ctx_new, dur_default)) with (Ok (K false 0 0 true false 0 1, dur_default)).
    cbn [bind]. rewrite run_brun1 by reflexivity. reflexivity.
Qed.

Definition build b y mo dd h mi se : duration :=
  sec_upd se (upd set_minutes mi (upd set_hours h (upd set_days dd (upd set_months mo
    (upd set_years y (neg_dur b)))))).

Definition lastk {A : Type} (k idx : N) (o : option A) : N := match o with None => k | Some _ => idx end.

Lemma owrap_shape chk o v : owrap chk o = Ok v -> (v = None <-> o = None).
Proof.
  destruct o as [n|]; cbn; [|intros [= <-]; tauto].
  destruct (u64_wrap chk n); [|discriminate..]. intros [= <-]. split; discriminate.
Qed.
Lemma swrap_shape chk o v : swrap chk o = Ok v -> (v = None <-> o = None).
Proof.
  destruct o as [[[n m] k]|]; cbn; [|intros [= <-]; tauto].
  destruct (u64_wrap chk n); [|discriminate..]. cbn.
  destruct (u64_wrap chk m); [|discriminate..]. cbn.
  destruct (u64_wrap chk _); [|discriminate..]. intros [= <-]. split; discriminate.
Qed.

Lemma brun_date chk y mo dd l rest b : 
  opt_comp (chr "Y") y (l_years l) -> opt_comp (chr "M") mo (l_months l) ->
  opt_comp (chr "D") dd (l_days l) ->
  brun chk (y ++ mo ++ dd ++ rest) (K false 0 0 true false 0 1, neg_dur b) =
  bind (owrap chk (l_years l)) (fun y => bind (owrap chk (l_months l)) (fun mo =>
  bind (owrap chk (l_days l)) (fun dd =>
    brun chk rest (K false (lastk (lastk (lastk 0 1 y) 2 mo) 3 dd) 0 true false 0 1,
                   upd set_days dd (upd set_months mo (upd set_years y (neg_dur b))))))).
Proof.
  intros Hy Hm Hd.
  rewrite (brun_comp chk (chr "Y") 1 false set_years y (l_years l));
    [|auto|lia|intros v; apply st_Y; lia].
  destruct (owrap chk (l_years l)) as [vy| |]; cbn [bind]; auto.
  rewrite (brun_comp chk (chr "M") 2 false set_months mo (l_months l));
    [|auto|destruct vy; lia|intros v; apply st_M1; destruct vy; lia].
  destruct (owrap chk (l_months l)) as [vm| |]; cbn [bind]; auto.
  rewrite (brun_comp chk (chr "D") 3 false set_days dd (l_days l));
    [reflexivity|auto|destruct vm, vy; lia|intros v; apply st_D; destruct vm, vy; lia].
Qed.

Lemma brun_time chk h m s l d :
  opt_comp (chr "H") h (l_hours l) -> opt_comp (chr "M") m (l_minutes l) ->
  opt_sec s (l_sec l) ->
  brun chk (h ++ m ++ s) (K true 3 0 true false 0 1, d) =
  bind (owrap chk (l_hours l)) (fun h => bind (owrap chk (l_minutes l)) (fun m =>
  bind (swrap chk (l_sec l)) (fun s =>
    Ok (K true (lastk (lastk (lastk 3 4 h) 5 m) 6 s) 0 true
          (sdot (l_sec l))
          (match s with None => 0 | Some (_, nu, _) => nu end)
          (match s with None => 1 | Some (_, _, de) => de end),
        sec_upd s (upd set_minutes m (upd set_hours h d)))))).
Proof.
  intros Hh Hm Hs.
  rewrite (brun_comp chk (chr "H") 4 true set_hours h (l_hours l));
    [|auto|lia|intros v; apply st_H; lia].
  destruct (owrap chk (l_hours l)) as [vh| |]; cbn [bind]; auto.
  rewrite (brun_comp chk (chr "M") 5 true set_minutes m (l_minutes l));
    [|auto|destruct vh; lia|intros v; apply st_M2; destruct vh; lia].
  destruct (owrap chk (l_minutes l)) as [vm| |]; cbn [bind]; auto.
  pose proof (brun_sec chk s (l_sec l) (lastk (lastk 3 4 vh) 5 vm)
              (upd set_minutes vm (upd set_hours vh d)) Hs) as E.
  unfold lastk in *. rewrite E by (destruct vh, vm; lia).
  destruct (swrap chk (l_sec l)) as [vs| |] eqn:Es; cbn [bind]; auto.
  apply swrap_shape in Es. destruct vs as [[[? ?] ?]|]; auto.
  destruct (l_sec l); [|reflexivity]. assert (Some p = None) by tauto. discriminate.
Qed.

Definition wrapped chk (l : dlit) : res duration :=
  bind (owrap chk (l_years l)) (fun y => bind (owrap chk (l_months l)) (fun mo =>
  bind (owrap chk (l_days l)) (fun dd => bind (owrap chk (l_hours l)) (fun h =>
  bind (owrap chk (l_minutes l)) (fun m => bind (swrap chk (l_sec l)) (fun s =>
    Ok (build (l_neg l) y mo dd h m s))))))).

Lemma from_str_lex chk s l : dur_lex s l -> dur_from_str chk s = wrapped chk l.
Proof.
  intros (y & mo & dd & t & -> & Hy & Hm & Hd & Ht). rewrite from_str_prefix.
  rewrite (brun_date chk y mo dd l t (l_neg l) Hy Hm Hd). unfold wrapped.
  destruct (owrap chk (l_years l)) as [vy| |] eqn:Ey; cbn [bind]; auto.
  destruct (owrap chk (l_months l)) as [vm| |] eqn:Em; cbn [bind]; auto.
  destruct (owrap chk (l_days l)) as [vd| |] eqn:Ed; cbn [bind]; auto.
  apply owrap_shape in Ey, Em, Ed.
  destruct Ht as [l (Eh & Emi & Es) Hnd|l h mi se Hnt Hh Hmi Hse].
  - rewrite Eh, Emi, Es. cbn [owrap swrap bind brun]. unfold finish, K.
    cbn [number is_p lastf is_t negb]. rewrite andb_false_r.
    assert ((lastk (lastk (lastk 0 1 vy) 2 vm) 3 vd =? 0) = false) as ->; [|reflexivity].
    unfold no_date in Hnd. destruct vy, vm, vd; try reflexivity. exfalso. tauto.
  - change (lit "T" ++ h ++ mi ++ se) with (chr "T" :: h ++ mi ++ se). cbn [brun].
    rewrite st_T by auto. cbn [bind].
    rewrite (brun_time chk h mi se l) by auto.
    destruct (owrap chk (l_hours l)) as [vh| |] eqn:Eh; cbn [bind]; auto.
    destruct (owrap chk (l_minutes l)) as [vmi| |] eqn:Emi; cbn [bind]; auto.
    destruct (swrap chk (l_sec l)) as [vs| |] eqn:Es; cbn [bind]; auto.
    apply owrap_shape in Eh, Emi. apply swrap_shape in Es.
    unfold finish, K. cbn [number is_p lastf is_t negb]. 
    assert ((lastk (lastk (lastk 3 4 vh) 5 vmi) 6 vs =? 0) = false) as ->
      by (destruct vh, vmi, vs; reflexivity).
    assert ((lastk (lastk (lastk 3 4 vh) 5 vmi) 6 vs <=? 3) = false) as ->; [|reflexivity].
    unfold no_time in Hnt. destruct vh, vmi, vs; try reflexivity. exfalso; tauto.
Qed.

Definition sec_ok (o : option (N * N * nat)) : Prop :=
  match o with None => True | Some (_, m, k) => m < 10 ^ N.of_nat k end.

Lemma opt_sec_ok s o : opt_sec s o -> sec_ok o.
Proof.
  destruct 1 as [|s n Hn|s n f m Hn Hf]; [exact I|reflexivity|].
  apply num_facts in Hf as (H1 & H2 & <-). apply digits_val_bound; auto.
Qed.
Lemma dur_lex_sec s l : dur_lex s l -> sec_ok (l_sec l).
Proof.
  intros (y & mo & dd & t & _ & _ & _ & _ & Ht).
  destruct Ht as [l (_ & _ & ->) _|l h m se _ _ _ Hs]; [exact I|]. eapply opt_sec_ok; eauto.
Qed.

Lemma pow10_fits k : (k < 20)%nat -> 10 ^ N.of_nat k < two64.
Proof.
  intros H. apply N.le_lt_trans with (10 ^ 19).
  - apply N.pow_le_mono_r; lia.
  - rewrite <- two64_eq. reflexivity.
Qed.
Lemma pow10_over k : (20 <= k)%nat -> two64 <= 10 ^ N.of_nat k.
Proof.
  intros H. apply N.le_trans with (10 ^ 20).
  - rewrite <- two64_eq. apply N.leb_le. vm_compute. reflexivity.
  - apply N.pow_le_mono_r; lia.
Qed.

Lemma sec_upd_value n m k : m < 10 ^ N.of_nat k ->
  f64_add (f64_of_N n) (f64_div (f64_of_N m) (f64_of_N (10 ^ N.of_nat k))) =
  sec_value (Some (n, m, k)).
Proof.
  intros H. destruct k as [|k]; [|reflexivity].
  change (10 ^ N.of_nat 0) with 1 in *. assert (m = 0) as -> by lia. apply add_zero_div.
Qed.

Lemma owrap_fits chk o : comp o < two64 -> owrap chk o = Ok o.
Proof. destruct o; cbn; auto. intros H. rewrite wrap_fits; auto. Qed.
Lemma owrap_true o v : owrap true o = Ok v -> comp o < two64 /\ v = o.
Proof.
  destruct o as [n|]; cbn.
  - destruct (u64_wrap true n) eqn:E; [|discriminate..]. intros [= <-].
    apply wrap_true in E as [-> E]. auto.
  - intros [= <-]; auto.
Qed.
Lemma owrap_false o : owrap false o = Ok (option_map (fun n => n mod two64) o).
Proof. destruct o; cbn [owrap]; auto. rewrite wrap_false. auto. Qed.

Lemma build_value l se : se = option_map (fun '(n, m, k) => (n, m, 10 ^ N.of_nat k)) (l_sec l) ->
  sec_ok (l_sec l) ->
  build (l_neg l) (l_years l) (l_months l) (l_days l) (l_hours l) (l_minutes l) se = value_of l.
Proof.
  intros -> Hs. destruct l as [b y mo dd h mi s]. unfold build, value_of.
  cbn [l_neg l_years l_months l_days l_hours l_minutes l_sec] in *.
  destruct s as [[[n1 m1] k1]|]; cbn [option_map sec_upd].
  - cbn [sec_ok] in Hs. rewrite sec_upd_value by auto.
    destruct b, y, mo, dd, h, mi; reflexivity.
  - destruct b, y, mo, dd, h, mi; reflexivity.
Qed.

Lemma wrapped_in_range chk l : sec_ok (l_sec l) -> in_range l -> wrapped chk l = Ok (value_of l).
Proof.
  intros Hs (Hy & Hm & Hd & Hh & Hmi & Hse). rewrite two64_eq in *. unfold wrapped.
  rewrite !owrap_fits by auto. cbn [bind].
  assert (swrap chk (l_sec l) = Ok (option_map (fun '(n, m, k) => (n, m, 10 ^ N.of_nat k)) (l_sec l)))
    as ->.
  { destruct (l_sec l) as [[[n m] k]|]; [|reflexivity]. cbn in Hs, Hse. cbn [swrap option_map].
    pose proof (pow10_fits k ltac:(lia)).
    rewrite !wrap_fits by lia. reflexivity. }
  cbn [bind]. f_equal. apply build_value; auto.
Qed.

Lemma wrapped_true_ok l r : wrapped true l = Ok r -> in_range l.
Proof.
  unfold wrapped. intros H.
  destruct (owrap true (l_years l)) as [vy| |] eqn:Ey; cbn [bind] in H; [|discriminate..].
  destruct (owrap true (l_months l)) as [vm| |] eqn:Em; cbn [bind] in H; [|discriminate..].
  destruct (owrap true (l_days l)) as [vd| |] eqn:Ed; cbn [bind] in H; [|discriminate..].
  destruct (owrap true (l_hours l)) as [vh| |] eqn:Eh; cbn [bind] in H; [|discriminate..].
  destruct (owrap true (l_minutes l)) as [vmi| |] eqn:Emi; cbn [bind] in H; [|discriminate..].
  destruct (swrap true (l_sec l)) as [vs| |] eqn:Es; cbn [bind] in H; [|discriminate..].
  apply owrap_true in Ey, Em, Ed, Eh, Emi. unfold in_range. rewrite two64_eq.
  repeat (split; [tauto|]).
  destruct (l_sec l) as [[[n m] k]|]; auto. cbn [swrap] in Es.
  destruct (u64_wrap true n) as [n'| |] eqn:En; cbn [bind] in Es; [|discriminate..].
  destruct (u64_wrap true m) as [m'| |] eqn:Em'; cbn [bind] in Es; [|discriminate..].
  destruct (u64_wrap true (10 ^ N.of_nat k)) as [de| |] eqn:Ek; cbn [bind] in Es; [|discriminate..].
  apply wrap_true in En, Ek. split; [tauto|].
  destruct (Nat.lt_ge_cases k 20) as [|Hk]; auto. apply pow10_over in Hk. lia.
Qed.

Lemma wrap_not_err chk n : u64_wrap chk n <> Err.
Proof. unfold u64_wrap. destruct (_ <? _), chk; discriminate. Qed.
Lemma owrap_not_err chk o : owrap chk o <> Err.
Proof.
  destruct o; cbn; [|discriminate]. pose proof (wrap_not_err chk n).
  destruct (u64_wrap chk n); cbn; congruence.
Qed.
Lemma wrapped_not_err chk l : wrapped chk l <> Err.
Proof.
  unfold wrapped. intros H.
  pose proof (owrap_not_err chk (l_years l)). destruct (owrap chk (l_years l)); cbn [bind] in H; try congruence.
  pose proof (owrap_not_err chk (l_months l)). destruct (owrap chk (l_months l)); cbn [bind] in H; try congruence.
  pose proof (owrap_not_err chk (l_days l)). destruct (owrap chk (l_days l)); cbn [bind] in H; try congruence.
  pose proof (owrap_not_err chk (l_hours l)). destruct (owrap chk (l_hours l)); cbn [bind] in H; try congruence.
  pose proof (owrap_not_err chk (l_minutes l)). destruct (owrap chk (l_minutes l)); cbn [bind] in H; try congruence.
  destruct (l_sec l) as [[[n m] k]|]; cbn [swrap bind] in H; [|congruence].
  pose proof (wrap_not_err chk n). destruct (u64_wrap chk n); cbn [bind] in H; try congruence.
  pose proof (wrap_not_err chk m). destruct (u64_wrap chk m); cbn [bind] in H; try congruence.
  pose proof (wrap_not_err chk (10 ^ N.of_nat k)).
  destruct (u64_wrap chk (10 ^ N.of_nat k)); cbn [bind] in H; try congruence.
Qed.

Lemma wrapped_false l : sec_ok (l_sec l) -> wrapped false l = Ok (value_mod l).
Proof.
  intros Hs. unfold wrapped. rewrite !owrap_false. cbn [bind].
  destruct l as [b y mo dd h mi s]. unfold build, value_mod, sec_value_mod. rewrite two64_eq.
  cbn [l_neg l_years l_months l_days l_hours l_minutes l_sec] in *.
  destruct s as [[[n m] k]|]; cbn [swrap].
  - rewrite !wrap_false. cbn [bind sec_upd].
    assert (f64_add (f64_of_N (n mod two64)) (f64_div (f64_of_N (m mod two64))
              (f64_of_N (10 ^ N.of_nat k mod two64))) =
            match k with
            | O => b64_of_N (n mod two64)
            | _ => b64_plus (b64_of_N (n mod two64)) (b64_div (b64_of_N (m mod two64))
                      (b64_of_N (10 ^ N.of_nat k mod two64)))
            end) as ->.
    { destruct k as [|k]; [|reflexivity]. cbn [sec_ok] in Hs.
      change (10 ^ N.of_nat 0) with 1 in *. assert (m = 0) as -> by lia.
      rewrite (N.mod_small 0), (N.mod_small 1) by (pose proof two64_big; lia).
      apply add_zero_div. }
    destruct k; destruct b, y, mo, dd, h, mi; reflexivity.
  - destruct b, y, mo, dd, h, mi; reflexivity.
Qed.

Lemma from_str_in_range chk s l : dur_lex s l -> in_range l ->
  dur_from_str chk s = Ok (value_of l).
Proof.
  intros H Hr. rewrite (from_str_lex chk s l H). apply wrapped_in_range; auto.
  eapply dur_lex_sec; eauto.
Qed.
Lemma from_str_overflow s l : dur_lex s l -> ~ in_range l -> dur_from_str true s = Panic.
Proof.
  intros H Hr. rewrite (from_str_lex true s l H). pose proof (wrapped_not_err true l).
  destruct (wrapped true l) eqn:E; try congruence. apply wrapped_true_ok in E. tauto.
Qed.
Lemma from_str_wraps s l : dur_lex s l -> dur_from_str false s = Ok (value_mod l).
Proof.
  intros H. rewrite (from_str_lex false s l H). apply wrapped_false. eapply dur_lex_sec; eauto.
Qed.

(** ** Build modes and panics *)
Lemma step_modes i c st : step true i c st = Panic \/ step true i c st = step false i c st.
Proof.
  destruct st as [cc d]. unfold step.
  repeat match goal with |- context [if ?c =? chr ?x then _ else _] =>
    destruct (c =? chr x); [right; reflexivity|] end.
  unfold step_digit. destruct (negb (is_ascii_digit c)); [auto|].
  assert (forall n, u64_wrap true n = Panic \/ u64_wrap true n = u64_wrap false n) as W.
  { intros n. unfold u64_wrap. destruct (n <? two64); auto. }
  unfold u64_mul, u64_add. destruct (is_dot cc).
  - destruct (W (numer cc * 10)) as [->| ->]; [auto|].
    destruct (u64_wrap false (numer cc * 10)) as [n1| |]; cbn [bind]; auto.
    destruct (W (n1 + digit_val c)) as [->| ->]; [auto|].
    destruct (u64_wrap false (n1 + digit_val c)) as [n2| |]; cbn [bind]; auto.
    destruct (W (denom cc * 10)) as [->| ->]; auto.
  - destruct (W (number cc * 10)) as [->| ->]; [auto|].
    destruct (u64_wrap false (number cc * 10)) as [n1| |]; cbn [bind]; auto.
    destruct (W (n1 + digit_val c)) as [->| ->]; auto.
Qed.

Lemma run_modes s : forall i st, run true i s st = Panic \/ run true i s st = run false i s st.
Proof.
  induction s as [|c s IH]; intros i st; cbn [run]; auto.
  destruct (step_modes i c st) as [->| ->]; auto.
  destruct (step false i c st); cbn [bind]; auto.
Qed.

Lemma from_str_modes s : dur_from_str true s = Panic \/ dur_from_str true s = dur_from_str false s.
Proof.
  destruct s as [|c s]; auto. unfold dur_from_str.
  destruct (run_modes (c :: s) 0 (ctx_new, dur_default)) as [->| ->]; auto.
Qed.

Lemma step_nondigit chk i c st : is_ascii_digit c = false ->
  step chk i c st <> Panic /\ forall st', step chk i c st = Ok st' ->
    number (fst st') <= number (fst st) /\ numer (fst st') = numer (fst st) /\
    denom (fst st') = denom (fst st).
Proof.
  intros Ed. destruct st as [cc d]. unfold step, fill_component, fill_seconds, step_digit.
  rewrite Ed. cbn [negb fst].
  repeat match goal with |- context [if ?b then _ else _] => destruct b; cbn [bind] end;
  (split; [discriminate|]); try (intros ? HH; discriminate HH);
  intros st' [= <-]; cbn [fst number numer denom]; repeat split; lia.
Qed.

Lemma step_not_panic c i st j : (j < 19)%nat -> is_ascii_digit c = true ->
  number (fst st) < 10 ^ N.of_nat j -> numer (fst st) < 10 ^ N.of_nat j ->
  denom (fst st) <= 10 ^ N.of_nat j ->
  exists st', step true i c st = Ok st' /\
    number (fst st') < 10 ^ N.of_nat (S j) /\ numer (fst st') < 10 ^ N.of_nat (S j) /\
    denom (fst st') <= 10 ^ N.of_nat (S j).
Proof.
  intros Hj Ed H1 H2 H3. destruct st as [cc d]. cbn [fst] in *.
  assert (0 < 10 ^ N.of_nat j) as Hp by (apply N.neq_0_lt_0, N.pow_nonzero; lia).
  assert (10 ^ N.of_nat (S j) = 10 * 10 ^ N.of_nat j) as Es.
  { rewrite Nat2N.inj_succ, N.pow_succ_r'. auto. }
  assert (10 ^ N.of_nat (S j) < two64) as Hb by (apply pow10_fits; lia).
  unfold step. rewrite !(digit_not c) by (auto; reflexivity).
  unfold step_digit, u64_mul, u64_add. rewrite Ed. cbn [negb].
  pose proof (is_digit_lt c Ed).
  destruct (is_dot cc).
  - rewrite (wrap_fits true (numer cc * 10)) by lia. cbn [bind].
    rewrite wrap_fits by lia. cbn [bind]. rewrite wrap_fits by lia. cbn [bind].
    eexists; split; [reflexivity|]. cbn [fst number numer denom]. repeat split; lia.
  - rewrite (wrap_fits true (number cc * 10)) by lia. cbn [bind].
    rewrite wrap_fits by lia. cbn [bind].
    eexists; split; [reflexivity|]. cbn [fst number numer denom]. repeat split; lia.
Qed.

Lemma run_not_panic s : forall i st j, (j + List.length (filter is_ascii_digit s) < 20)%nat ->
  number (fst st) < 10 ^ N.of_nat j -> numer (fst st) < 10 ^ N.of_nat j ->
  denom (fst st) <= 10 ^ N.of_nat j -> run true i s st <> Panic.
Proof.
  induction s as [|c s IH]; intros i st j Hl H1 H2 H3; cbn [run]; [discriminate|].
  cbn [filter] in Hl. destruct (is_ascii_digit c) eqn:Ed.
  - cbn [List.length] in Hl.
    destruct (step_not_panic c i st j ltac:(lia) Ed H1 H2 H3) as (st' & -> & A & B & C).
    cbn [bind]. apply IH with (j := S j); auto; lia.
  - destruct (step_nondigit true i c st Ed) as [Hn Hok].
    destruct (step true i c st) as [st'| |] eqn:E; cbn [bind]; try congruence.
    destruct (Hok st' eq_refl) as (A & B & C). apply IH with (j := j); auto; try lia.
Qed.

Lemma finish_not_panic st : finish st <> Panic.
Proof.
  destruct st as [c d]. unfold finish.
  repeat match goal with |- context [if ?b then _ else _] => destruct b end; discriminate.
Qed.

Lemma from_str_no_panic s : (List.length (filter is_ascii_digit s) < 20)%nat ->
  dur_from_str true s <> Panic.
Proof.
  intros H. destruct s as [|c s]; [discriminate|]. unfold dur_from_str.
  pose proof (run_not_panic (c :: s) 0 (ctx_new, dur_default) 0 H) as Hr.
  cbn [fst ctx_new number numer denom] in Hr. change (10 ^ N.of_nat 0) with 1 in Hr.
  specialize (Hr ltac:(lia) ltac:(lia) ltac:(lia)).
  destruct (run true 0 (c :: s) (ctx_new, dur_default)) as [st| |]; cbn [bind]; try congruence.
  apply finish_not_panic.
Qed.

(** ** Soundness (overflow-checking build) *)
Lemma digit_split s : exists ds r, s = ds ++ r /\ forallb is_ascii_digit ds = true /\
  match r with [] => True | c :: _ => is_ascii_digit c = false end.
Proof.
  induction s as [|c s (ds & r & -> & H1 & H2)].
  - exists [], []. auto.
  - destruct (is_ascii_digit c) eqn:E.
    + exists (c :: ds), r. cbn [forallb app]. rewrite E. auto.
    + exists [], (c :: ds ++ r). auto.
Qed.

Lemma bind_inv {A B} (r : res A) (f : A -> res B) b : bind r f = Ok b -> exists a, r = Ok a /\ f a = Ok b.
Proof. destruct r; cbn [bind]; try discriminate. eauto. Qed.

Lemma bstep_inv c t k n e dot nu de d st : is_ascii_digit c = false ->
  bstep true c (K t k n e dot nu de, d) = Ok st ->
  (c = chr "T" /\ t = false /\ n = 0 /\ st = (K true 3 n e dot nu de, d)) \/
  (c = chr "Y" /\ e = false /\ dot = false /\ k < 1 /\ st = (K t 1 0 true dot nu de, set_years d n)) \/
  (c = chr "M" /\ t = true /\ e = false /\ dot = false /\ k < 5 /\
     st = (K t 5 0 true dot nu de, set_minutes d n)) \/
  (c = chr "M" /\ t = false /\ e = false /\ dot = false /\ k < 2 /\
     st = (K t 2 0 true dot nu de, set_months d n)) \/
  (c = chr "D" /\ e = false /\ dot = false /\ k < 3 /\ st = (K t 3 0 true dot nu de, set_days d n)) \/
  (c = chr "H" /\ t = true /\ e = false /\ dot = false /\ k < 4 /\
     st = (K t 4 0 true dot nu de, set_hours d n)) \/
  (c = chr "S" /\ t = true /\ e = false /\ (dot = true -> de <> 1) /\ k < 6 /\
     st = (K t 6 0 true dot nu de,
           set_seconds d (f64_add (f64_of_N n) (f64_div (f64_of_N nu) (f64_of_N de))))) \/
  (c = chr "." /\ e = false /\ dot = false /\ st = (K t k n e true nu de, d)).
Proof.
  intros Hc. unfold bstep, step, fill_component, fill_seconds, step_digit. rewrite Hc.
  unfold K.
  cbn [Nat.eqb andb orb is_t number is_empty_n is_dot lastf numer denom is_p negb].
  repeat match goal with |- context [if c =? chr ?x then _ else _] =>
    destruct (N.eqb_spec c (chr x)) as [?|?];
    [ try ((intros HH; discriminate HH))
    | ]
  end; try (intros HH; discriminate HH).
  - destruct t; [(intros HH; discriminate HH)|]. destruct (0 <? n) eqn:E; [(intros HH; discriminate HH)|]. intros [= <-].
    left. repeat split; auto; lia.
  - destruct e; [(intros HH; discriminate HH)|]. destruct dot; [(intros HH; discriminate HH)|].
    destruct (1 <=? k) eqn:E; [(intros HH; discriminate HH)|]. cbn [bind]. intros [= <-].
    right; left. repeat split; auto; lia.
  - destruct t; destruct e; try (intros HH; discriminate HH); (destruct dot; [(intros HH; discriminate HH)|]).
    + destruct (5 <=? k) eqn:E; [(intros HH; discriminate HH)|]. cbn [bind]. intros [= <-].
      do 2 right; left. repeat split; auto; lia.
    + destruct (2 <=? k) eqn:E; [(intros HH; discriminate HH)|]. cbn [bind]. intros [= <-].
      do 3 right; left. repeat split; auto; lia.
  - destruct e; [(intros HH; discriminate HH)|]. destruct dot; [(intros HH; discriminate HH)|].
    destruct (3 <=? k) eqn:E; [(intros HH; discriminate HH)|]. cbn [bind]. intros [= <-].
    do 4 right; left. repeat split; auto; lia.
  - destruct t; [|(intros HH; discriminate HH)]. destruct e; [(intros HH; discriminate HH)|]. destruct dot; [(intros HH; discriminate HH)|].
    cbn [negb]. destruct (4 <=? k) eqn:E; [(intros HH; discriminate HH)|]. cbn [bind]. intros [= <-].
    do 5 right; left. repeat split; auto; lia.
  - destruct t; [|(intros HH; discriminate HH)]. destruct e; [(intros HH; discriminate HH)|]. cbn [negb].
    destruct (dot && (de =? 1)) eqn:E1; [(intros HH; discriminate HH)|].
    destruct (6 <=? k) eqn:E; [(intros HH; discriminate HH)|]. cbn [bind]. intros [= <-].
    do 6 right; left. repeat split; auto; try lia. intros ->. cbn in E1. lia.
  - destruct dot; [(intros HH; discriminate HH)|]. destruct e; [(intros HH; discriminate HH)|]. intros [= <-].
    do 7 right. repeat split; auto.
Qed.

Definition zero_run (x : str) : Prop := x = [] \/ num x 0.

Lemma pending_digits x ds r t k nu de d st : zero_run x -> forallb is_ascii_digit ds = true ->
  brun true (ds ++ r) (K t k 0 (is_empty x) false nu de, d) = Ok st ->
  exists n, brun true r (K t k n (is_empty (x ++ ds)) false nu de, d) = Ok st /\ n < two64 /\
    ((x ++ ds = [] /\ n = 0) \/ num (x ++ ds) n).
Proof.
  intros Hx Hd H. destruct ds as [|c ds].
  - exists 0. rewrite app_nil_r. split; [exact H|]. split; [auto|]. destruct Hx; auto.
  - remember (c :: ds) as l eqn:El. assert (l <> []) as Hl by (subst; discriminate).
    rewrite brun_app in H. apply bind_inv in H as (st1 & H1 & H2).
    rewrite brun_digits in H1 by auto. rewrite N.mul_0_l, N.add_0_l in H1.
    apply bind_inv in H1 as (v & H1 & [= <-]). apply wrap_true in H1 as [-> Hv].
    exists (digits_val l).
    assert (is_empty (x ++ l) = false) as -> by (destruct x; [subst l|]; reflexivity).
    repeat split; auto. right. apply num_iff. repeat split.
    + intros E. apply app_eq_nil in E. tauto.
    + rewrite forallb_app, Hd, andb_true_r. destruct Hx as [->|Hx]; auto.
      apply num_facts in Hx. tauto.
    + destruct Hx as [->|Hx]; auto. rewrite digits_val_app. apply num_facts in Hx. lia.
Qed.

Lemma K_inj t k n e dot nu de t' k' n' e' dot' nu' de' :
  K t k n e dot nu de = K t' k' n' e' dot' nu' de' ->
  t = t' /\ k = k' /\ n = n' /\ e = e' /\ dot = dot' /\ nu = nu' /\ de = de'.
Proof. intros [= -> -> -> -> -> -> ->]. repeat split. Qed.

Lemma finish_inv t k n e dot nu de d r : finish (K t k n e dot nu de, d) = Ok r ->
  n = 0 /\ k <> 0 /\ (t = true -> 3 < k) /\ r = d.
Proof.
  unfold finish, K. cbn [number is_p lastf is_t negb].
  destruct (0 <? n) eqn:E1; [discriminate|]. destruct (k =? 0) eqn:E2; [discriminate|].
  destruct ((k <=? 3) && t) eqn:E3; [discriminate|]. intros [= <-].
  repeat split; try lia; destruct t; try discriminate; intros _; lia.
Qed.

Lemma fraction_inv f ds r t k n e d st : forallb is_ascii_digit f = true -> (List.length f < 20)%nat ->
  forallb is_ascii_digit ds = true ->
  brun true (ds ++ r) (K t k n e true (digits_val f) (10 ^ N.of_nat (List.length f)), d) = Ok st ->
  (List.length (f ++ ds) < 20)%nat /\
  brun true r (K t k n e true (digits_val (f ++ ds)) (10 ^ N.of_nat (List.length (f ++ ds))), d) = Ok st.
Proof.
  intros Hf Hl Hd H. rewrite brun_app in H. apply bind_inv in H as (st1 & H1 & H2).
  pose proof (digits_val_bound f Hf). pose proof (pow10_fits _ Hl).
  rewrite brun_fraction in H1 by (auto; lia).
  apply bind_inv in H1 as (nu & E1 & H1). apply bind_inv in H1 as (de & E2 & [= <-]).
  apply wrap_true in E1 as [-> E1]. apply wrap_true in E2 as [-> E2].
  rewrite <- N.pow_add_r, <- Nat2N.inj_add, <- app_length in H2, E2.
  rewrite <- digits_val_app in H2. split; auto.
  destruct (Nat.lt_ge_cases (List.length (f ++ ds)) 20) as [|Hk]; auto. apply pow10_over in Hk. lia.
Qed.

(** after the seconds, when a point has been seen *)
Lemma tail_dot s k n f d st r : forallb is_ascii_digit f = true -> (List.length f < 20)%nat ->
  brun true s (K true k n true true (digits_val f) (10 ^ N.of_nat (List.length f)), d) = Ok st ->
  finish st = Ok r ->
  forallb is_ascii_digit s = true /\ (List.length f + List.length s < 20)%nat /\ r = d.
Proof.
  intros Hf Hl H Hfin. destruct (digit_split s) as (ds & r' & -> & Hd & Hr).
  apply fraction_inv in H as [Hl2 H]; auto. destruct r' as [|c r'].
  - cbn [brun] in H. injection H as <-. apply finish_inv in Hfin as (-> & _ & _ & ->).
    rewrite app_nil_r in *. rewrite app_length in Hl2. auto.
  - cbn [brun] in H. apply bind_inv in H as (st1 & H1 & H2). exfalso.
    apply bstep_inv in H1; auto.
    intuition congruence.
Qed.

(** after the seconds, no point seen *)
Lemma tail_plain s d st r :
  brun true s (K true 6 0 true false 0 1, d) = Ok st -> finish st = Ok r ->
  r = d /\ (s = [] \/ idle s /\ (after_point s < 20)%nat).
Proof.
  intros H Hfin. destruct (digit_split s) as (ds & r' & -> & Hd & Hr).
  change (K true 6 0 true false 0 1) with (K true 6 0 (is_empty (@nil N)) false 0 1) in H.
  apply pending_digits in H as (n & H & Hn & Hv); [|left; auto|auto].
  cbn [app] in H, Hv. destruct r' as [|c r'].
  - cbn [brun] in H. injection H as <-. apply finish_inv in Hfin as (-> & _ & _ & ->).
    rewrite app_nil_r. split; auto. destruct Hv as [[-> _]|Hv]; [auto|right].
    split; [apply idle_zeros; auto|].
    clear -Hd. induction ds as [|c ds IH]; cbn [after_point]; [lia|].
    cbn [forallb] in Hd. apply andb_prop in Hd as [Hc Hd].
    rewrite (digit_not c) by (auto; reflexivity). auto.
  - cbn [brun] in H. apply bind_inv in H as (st1 & H1 & H2).
    apply bstep_inv in H1; auto.
    destruct H1 as [H1|[H1|[H1|[H1|[H1|[H1|[H1|H1]]]]]]];
      try (exfalso; destruct H1; intuition (congruence || lia)).
    destruct H1 as (-> & He & _ & ->).
    destruct Hv as [[-> ->]|Hv]; [discriminate|].
    rewrite He in H2.
    change (K true 6 n false true 0 1) with
      (K true 6 n false true (digits_val []) (10 ^ N.of_nat (List.length (@nil N)))) in H2.
    destruct (digit_split r') as (fs & r2 & -> & Hfs & Hr2).
    apply fraction_inv in H2 as [Hl2 H2]; [|auto|cbn; lia|auto]. cbn [app] in Hl2, H2.
    destruct r2 as [|c2 r2].
    + cbn [brun] in H2. injection H2 as <-. apply finish_inv in Hfin as (-> & _ & _ & ->).
      rewrite app_nil_r. split; auto. right. split; [apply (idle_dot ds fs); auto|].
      clear -Hd Hfs Hl2. induction ds as [|c ds IH]; cbn [after_point app].
      * rewrite N.eqb_refl. replace (filter is_ascii_digit fs) with fs; auto.
        clear Hl2. induction fs as [|c fs IH]; auto. cbn [forallb filter] in *.
        apply andb_prop in Hfs as [Hc Hfs]. rewrite Hc, <- IH; auto.
      * cbn [forallb] in Hd. apply andb_prop in Hd as [Hc Hd].
        rewrite (digit_not c) by (auto; reflexivity). auto.
    + cbn [brun] in H2. apply bind_inv in H2 as (st2 & H3 & H4). exfalso.
      apply bstep_inv in H3; auto. intuition (congruence || lia).
Qed.

Lemma after_point_digits f : forallb is_ascii_digit f = true -> after_point f = 0%nat.
Proof.
  induction f as [|c f IH]; auto. cbn [forallb after_point]. intros H.
  apply andb_prop in H as [Hc Hd]. rewrite (digit_not c) by (auto; reflexivity). auto.
Qed.
Lemma after_point_app a b : ~ In (chr ".") a -> after_point (a ++ b) = after_point b.
Proof.
  induction a as [|c a IH]; auto. intros H. cbn [app after_point].
  assert ((c =? chr ".") = false) as ->.
  { apply N.eqb_neq. intros ->. apply H. left; auto. }
  apply IH. intros Hi. apply H. right; auto.
Qed.
Lemma filter_digits f : forallb is_ascii_digit f = true -> filter is_ascii_digit f = f.
Proof.
  induction f as [|c f IH]; auto. cbn [forallb filter]. intros H.
  apply andb_prop in H as [Hc Hd]. rewrite Hc, IH; auto.
Qed.
Lemma digits_no_dot f : forallb is_ascii_digit f = true -> ~ In (chr ".") f.
Proof. intros H Hi. rewrite forallb_forall in H. apply H in Hi. discriminate. Qed.
Lemma num_no_dot s n : num s n -> ~ In (chr ".") s.
Proof. intros H. apply num_facts in H. apply digits_no_dot. tauto. Qed.

Inductive tfrom : N -> str -> duration -> duration -> option nat -> N -> Prop :=
| tf_nil k d : tfrom k [] d d None k
| tf_h k ds n W d d' fd k' : num ds n -> n < two64 -> k < 4 ->
    tfrom 4 W (set_hours d n) d' fd k' -> tfrom k (ds ++ chr "H" :: W) d d' fd k'
| tf_m k ds n W d d' fd k' : num ds n -> n < two64 -> k < 5 ->
    tfrom 5 W (set_minutes d n) d' fd k' -> tfrom k (ds ++ chr "M" :: W) d d' fd k'
| tf_s k ds n d : num ds n -> n < two64 -> k < 6 ->
    tfrom k (ds ++ [chr "S"]) d
      (set_seconds d (f64_add (f64_of_N n) (f64_div (f64_of_N 0) (f64_of_N 1)))) None 6
| tf_f k ds n f d : num ds n -> n < two64 -> k < 6 -> num f (digits_val f) ->
    (List.length f < 20)%nat ->
    tfrom k (ds ++ chr "." :: f ++ [chr "S"]) d
      (set_seconds d (f64_add (f64_of_N n) (f64_div (f64_of_N (digits_val f))
                       (f64_of_N (10 ^ N.of_nat (List.length f)))))) (Some (List.length f)) 6.

Definition trail (fd : option nat) (j : str) : Prop :=
  match fd with
  | None => j = [] \/ idle j /\ (after_point j < 20)%nat
  | Some k => forallb is_ascii_digit j = true /\ (k + List.length j < 20)%nat
  end.

Lemma sound_dot s k n f d st r : forallb is_ascii_digit f = true -> (List.length f < 20)%nat ->
  3 <= k -> brun true s (K true k n false true (digits_val f) (10 ^ N.of_nat (List.length f)), d) = Ok st ->
  finish st = Ok r ->
  (forallb is_ascii_digit s = true /\ n = 0 /\ 3 < k /\ r = d /\ (List.length (f ++ s) < 20)%nat) \/
  exists fs J, s = fs ++ chr "S" :: J /\ num (f ++ fs) (digits_val (f ++ fs)) /\
    trail (Some (List.length (f ++ fs))) J /\ k < 6 /\ (List.length (f ++ fs) < 20)%nat /\
    r = set_seconds d (f64_add (f64_of_N n) (f64_div (f64_of_N (digits_val (f ++ fs)))
                       (f64_of_N (10 ^ N.of_nat (List.length (f ++ fs)))))).
Proof.
  intros Hf Hl Hk H Hfin. destruct (digit_split s) as (ds & r' & -> & Hd & Hr).
  apply fraction_inv in H as [Hl2 H]; auto.
  assert (forallb is_ascii_digit (f ++ ds) = true) as Hfd by (rewrite forallb_app, Hf, Hd; auto).
  destruct r' as [|c r'].
  - left. cbn [brun] in H. injection H as <-. apply finish_inv in Hfin as (-> & _ & H3 & ->).
    rewrite app_nil_r. auto.
  - right. cbn [brun] in H. apply bind_inv in H as (st1 & H1 & H2).
    apply bstep_inv in H1; auto.
    destruct H1 as [H1|[H1|[H1|[H1|[H1|[H1|[H1|H1]]]]]]]; try (exfalso; intuition congruence).
    destruct H1 as (-> & _ & _ & Hde & Hk6 & ->). exists ds, r'.
    apply tail_dot with (r := r) in H2; auto. destruct H2 as (HJ & HlJ & ->).
    repeat split; auto. apply num_iff. repeat split; auto.
    intros E. rewrite E in Hde. specialize (Hde eq_refl). apply Hde. reflexivity.
Qed.

Lemma sound_time len : forall s x k d st r, (List.length s <= len)%nat -> zero_run x -> 3 <= k ->
  brun true s (K true k 0 (is_empty x) false 0 1, d) = Ok st -> finish st = Ok r ->
  exists W J fd k', x ++ s = W ++ J /\ tfrom k W d r fd k' /\ 3 < k' /\ trail fd J.
Proof.
  induction len as [len IH] using lt_wf_ind. intros s x k d st r Hlen Hx Hk H Hfin.
  destruct (digit_split s) as (ds & r' & -> & Hd & Hr).
  apply pending_digits in H as (n & H & Hn & Hv); auto.
  rewrite app_assoc. set (p := x ++ ds) in *. clearbody p.
  assert (is_empty p = false -> num p n) as Hp.
  { intros E. destruct Hv as [[-> _]|Hv]; [discriminate|auto]. }
  destruct r' as [|c r'].
  - rewrite app_nil_r. cbn [brun] in H. injection H as <-.
    apply finish_inv in Hfin as (-> & _ & H3 & ->).
    exists [], p, None, k. split; [auto|]. split; [apply tf_nil|]. split; [auto|]. cbn [trail].
    destruct Hv as [[-> _]|Hv]; [auto|]. right. split; [apply idle_zeros; auto|].
    apply num_facts in Hv. rewrite after_point_digits by tauto. lia.
  - cbn [brun] in H. apply bind_inv in H as (st1 & H1 & H2).
    apply bstep_inv in H1; auto. rewrite app_length in Hlen. cbn [List.length] in Hlen.
    destruct H1 as [H1|[H1|[H1|[H1|[H1|[H1|[H1|H1]]]]]]];
      try (exfalso; intuition (congruence || lia)).
    + destruct H1 as (-> & _ & He & _ & Hk5 & ->).
      destruct (IH (len - 1)%nat ltac:(lia) r' [] 5 (set_minutes d n) st r)
        as (W & J & fd & k' & E & HT & HK & HJ); try (left; reflexivity); auto; try lia.
      exists (p ++ chr "M" :: W), J, fd, k'. cbn [app] in E. rewrite <- app_assoc, E.
      repeat split; auto. eapply tf_m; eauto.
    + destruct H1 as (-> & _ & He & _ & Hk5 & ->).
      destruct (IH (len - 1)%nat ltac:(lia) r' [] 4 (set_hours d n) st r)
        as (W & J & fd & k' & E & HT & HK & HJ); try (left; reflexivity); auto; try lia.
      exists (p ++ chr "H" :: W), J, fd, k'. cbn [app] in E. rewrite <- app_assoc, E.
      repeat split; auto. eapply tf_h; eauto.
    + destruct H1 as (-> & _ & He & _ & Hk6 & ->).
      apply tail_plain with (r := r) in H2; auto. destruct H2 as [-> HJ].
      exists (p ++ [chr "S"]), r', None, 6. rewrite <- app_assoc. split; [auto|]. split; [|split; [lia|auto]].
      eapply tf_s; auto.
    + destruct H1 as (-> & He & _ & ->). rewrite He in H2.
      change (K true k n false true 0 1) with
        (K true k n false true (digits_val []) (10 ^ N.of_nat (List.length (@nil N)))) in H2.
      apply sound_dot with (r := r) in H2; auto; [|cbn; lia].
      destruct H2 as [(Hs & -> & Hk3 & -> & Hl)|(fs & J & -> & Hfs & HJ & Hk6 & Hl & ->)].
      * exists [], (p ++ chr "." :: r'), None, k. split; [auto|]. split; [apply tf_nil|]. split; [auto|].
        cbn [trail]. right. split; [apply (idle_dot p r'); auto|].
        rewrite after_point_app by (eapply num_no_dot; eauto). cbn [after_point].
        rewrite N.eqb_refl, filter_digits by auto. exact Hl.
      * cbn [app] in *. exists (p ++ chr "." :: fs ++ [chr "S"]), J, (Some (List.length fs)), 6.
        rewrite <- !app_assoc. cbn [app]. rewrite <- !app_assoc. cbn [app].
        split; [auto|]. split; [|split; [lia|exact HJ]]. eapply tf_f; eauto.
Qed.

Inductive dfrom : N -> str -> duration -> duration -> N -> Prop :=
| df_nil k d : dfrom k [] d d k
| df_y k ds n A d d' k' : num ds n -> n < two64 -> k < 1 ->
    dfrom 1 A (set_years d n) d' k' -> dfrom k (ds ++ chr "Y" :: A) d d' k'
| df_m k ds n A d d' k' : num ds n -> n < two64 -> k < 2 ->
    dfrom 2 A (set_months d n) d' k' -> dfrom k (ds ++ chr "M" :: A) d d' k'
| df_d k ds n A d d' k' : num ds n -> n < two64 -> k < 3 ->
    dfrom 3 A (set_days d n) d' k' -> dfrom k (ds ++ chr "D" :: A) d d' k'.

Lemma sound_date len : forall s k d st r, (List.length s <= len)%nat ->
  brun true s (K false k 0 true false 0 1, d) = Ok st -> finish st = Ok r ->
  exists A d' k' rest, dfrom k A d d' k' /\ s = A ++ rest /\
    ((r = d' /\ 0 < k' /\ trail None rest) \/
     (exists x b, rest = x ++ chr "T" :: b /\
       ((zero_run x /\ brun true b (K true 3 0 (is_empty x) false 0 1, d') = Ok st) \/
        (exists z f, x = z ++ chr "." :: f /\ num z 0 /\ forallb is_ascii_digit f = true /\
          (List.length f < 20)%nat /\
          brun true b (K true 3 0 false true (digits_val f) (10 ^ N.of_nat (List.length f)), d') = Ok st)))).
Proof.
  induction len as [len IH] using lt_wf_ind. intros s k d st r Hlen H Hfin.
  destruct (digit_split s) as (p & r' & -> & Hd & Hr).
  change (K false k 0 true false 0 1) with (K false k 0 (is_empty (@nil N)) false 0 1) in H.
  apply pending_digits in H as (n & H & Hn & Hv); [|left; auto|auto]. cbn [app] in H, Hv.
  assert (is_empty p = false -> num p n) as Hp.
  { intros E. destruct Hv as [[-> _]|Hv]; [discriminate|auto]. }
  destruct r' as [|c r'].
  - rewrite app_nil_r. cbn [brun] in H. injection H as <-.
    apply finish_inv in Hfin as (-> & Hk & _ & ->).
    exists [], d, k, p. split; [constructor|]. split; auto. left. split; auto. split; [lia|].
    cbn [trail]. destruct Hv as [[-> _]|Hv]; [auto|]. right. split; [apply idle_zeros; auto|].
    rewrite after_point_digits by auto. lia.
  - cbn [brun] in H. apply bind_inv in H as (st1 & H1 & H2).
    apply bstep_inv in H1; auto. rewrite app_length in Hlen. cbn [List.length] in Hlen.
    destruct H1 as [H1|[H1|[H1|[H1|[H1|[H1|[H1|H1]]]]]]];
      try (exfalso; intuition (congruence || lia)).
    + destruct H1 as (-> & _ & -> & ->). exists [], d, k, (p ++ chr "T" :: r').
      split; [constructor|]. split; auto. right. exists p, r'. split; auto. left. split; auto.
      destruct Hv as [[-> _]|Hv]; [left|right]; auto.
    + destruct H1 as (-> & He & _ & Hk1 & ->).
      destruct (IH (len - 1)%nat ltac:(lia) r' 1 (set_years d n) st r)
        as (A & d' & k' & rest & HA & -> & HR); auto; try lia.
      exists (p ++ chr "Y" :: A), d', k', rest. split; [eapply df_y; eauto|].
      rewrite <- app_assoc. auto.
    + destruct H1 as (-> & _ & He & _ & Hk1 & ->).
      destruct (IH (len - 1)%nat ltac:(lia) r' 2 (set_months d n) st r)
        as (A & d' & k' & rest & HA & -> & HR); auto; try lia.
      exists (p ++ chr "M" :: A), d', k', rest. split; [eapply df_m; eauto|].
      rewrite <- app_assoc. auto.
    + destruct H1 as (-> & He & _ & Hk1 & ->).
      destruct (IH (len - 1)%nat ltac:(lia) r' 3 (set_days d n) st r)
        as (A & d' & k' & rest & HA & -> & HR); auto; try lia.
      exists (p ++ chr "D" :: A), d', k', rest. split; [eapply df_d; eauto|].
      rewrite <- app_assoc. auto.
    + destruct H1 as (-> & He & _ & ->). rewrite He in H2. specialize (Hp He).
      change (K false k n false true 0 1) with
        (K false k n false true (digits_val []) (10 ^ N.of_nat (List.length (@nil N)))) in H2.
      destruct (digit_split r') as (fs & r2 & -> & Hfs & Hr2).
      apply fraction_inv in H2 as [Hl2 H2]; [|auto|cbn; lia|auto]. cbn [app] in Hl2, H2.
      destruct r2 as [|c2 r2].
      * rewrite app_nil_r. cbn [brun] in H2. injection H2 as <-.
        apply finish_inv in Hfin as (-> & Hk & _ & ->).
        exists [], d, k, (p ++ chr "." :: fs). split; [constructor|]. split; auto. left.
        split; auto. split; [lia|]. right. split; [apply (idle_dot p fs); auto|].
        rewrite after_point_app by (eapply num_no_dot; eauto). cbn [after_point].
        rewrite N.eqb_refl, filter_digits by auto. auto.
      * cbn [brun] in H2. apply bind_inv in H2 as (st2 & H3 & H4).
        apply bstep_inv in H3; auto.
        destruct H3 as [H3|[H3|[H3|[H3|[H3|[H3|[H3|H3]]]]]]]; try (exfalso; intuition congruence).
        destruct H3 as (-> & _ & -> & ->).
        exists [], d, k, (p ++ chr "." :: fs ++ chr "T" :: r2). split; [constructor|]. split; auto.
        right. exists (p ++ chr "." :: fs), r2. rewrite <- app_assoc. split; auto. right.
        exists p, fs. auto.
Qed.

Definition scale (o : option (N * N * nat)) : option (N * N * N) :=
  option_map (fun '(n, m, k) => (n, m, 10 ^ N.of_nat k)) o.
Definition fdig (o : option (N * N * nat)) : option nat :=
  match o with Some (_, _, S k) => Some (S k) | _ => None end.

Lemma opt_comp_no_dot c s o : c <> chr "." -> opt_comp c s o -> ~ In (chr ".") s.
Proof.
  intros Hc H. destruct H as [|s n H]; [auto|]. intros Hi. apply in_app_or in Hi as [Hi|Hi].
  - eapply num_no_dot; eauto.
  - apply in_inv in Hi as [Hi|[]]. auto.
Qed.

Lemma dfrom3 A d d' k' k : 3 <= k -> dfrom k A d d' k' -> A = [] /\ d' = d /\ k' = k.
Proof. intros Hk H. inversion H; subst; auto; lia. Qed.
Lemma dfrom2 A d d' k' : dfrom 2 A d d' k' -> exists od, opt_comp (chr "D") A od /\
  d' = upd set_days od d /\ comp od < two64 /\ k' = lastk 2 3 od.
Proof.
  intros H. inversion H; subst; try lia.
  - exists None. repeat split; auto. constructor.
  - apply dfrom3 in H3 as (-> & -> & ->); [|lia]. exists (Some n). repeat split; auto.
    constructor; auto.
Qed.
Lemma dfrom1 A d d' k' : dfrom 1 A d d' k' -> exists mo dd om od, A = mo ++ dd /\
  opt_comp (chr "M") mo om /\ opt_comp (chr "D") dd od /\
  d' = upd set_days od (upd set_months om d) /\ comp om < two64 /\ comp od < two64 /\
  k' = lastk (lastk 1 2 om) 3 od.
Proof.
  intros H. inversion H; subst; try lia.
  - exists [], [], None, None. repeat split; auto; constructor.
  - apply dfrom2 in H3 as (od & H3 & -> & H4 & ->).
    exists (ds ++ [chr "M"]), A0, (Some n), od. rewrite <- app_assoc. repeat split; auto.
    constructor; auto.
  - apply dfrom3 in H3 as (-> & -> & ->); [|lia].
    exists [], (ds ++ [chr "D"]), None, (Some n). repeat split; auto; constructor; auto.
Qed.
Lemma dfrom0 A d d' k' : dfrom 0 A d d' k' -> exists y mo dd oy om od, A = y ++ mo ++ dd /\
  opt_comp (chr "Y") y oy /\ opt_comp (chr "M") mo om /\ opt_comp (chr "D") dd od /\
  d' = upd set_days od (upd set_months om (upd set_years oy d)) /\
  comp oy < two64 /\ comp om < two64 /\ comp od < two64 /\
  k' = lastk (lastk (lastk 0 1 oy) 2 om) 3 od.
Proof.
  intros H. inversion H; subst; try lia.
  - exists [], [], [], None, None, None. repeat split; auto; constructor.
  - apply dfrom1 in H3 as (mo & dd & om & od & -> & H3 & H4 & -> & H5 & H6 & ->).
    exists (ds ++ [chr "Y"]), mo, dd, (Some n), om, od. rewrite <- app_assoc.
    repeat split; auto. constructor; auto.
  - apply dfrom2 in H3 as (od & H3 & -> & H4 & ->).
    exists [], (ds ++ [chr "M"]), A0, None, (Some n), od. rewrite <- app_assoc.
    repeat split; auto; constructor; auto.
  - apply dfrom3 in H3 as (-> & -> & ->); [|lia].
    exists [], [], (ds ++ [chr "D"]), None, None, (Some n).
    repeat split; auto; constructor; auto.
Qed.

Definition sec_range (o : option (N * N * nat)) : Prop :=
  match o with None => True | Some (n, _, k) => n < two64 /\ (k < 20)%nat end.

Lemma tfrom6 W d d' fd k' k : 6 <= k -> tfrom k W d d' fd k' -> W = [] /\ d' = d /\ fd = None /\ k' = k.
Proof. intros Hk H. inversion H; subst; auto; lia. Qed.
Lemma tfrom5 W d d' fd k' k : k < 6 -> 5 <= k -> tfrom k W d d' fd k' -> exists os, opt_sec W os /\
  d' = sec_upd (scale os) d /\ sec_range os /\ fd = fdig os /\ k' = lastk k 6 os.
Proof.
  intros Hk6 Hk H. inversion H; subst; try lia.
  - exists None. repeat split; auto. constructor.
  - exists (Some (n, 0, 0%nat)). repeat split; auto; [constructor; auto|]. cbn. lia.
  - exists (Some (n, digits_val f, List.length f)). repeat split; auto; [constructor; auto|].
    apply num_facts in H3 as (H3 & _). destruct f; [congruence|]. reflexivity.
Qed.
Lemma tfrom4 W d d' fd k' k : k < 5 -> 4 <= k -> tfrom k W d d' fd k' -> exists m s om os, W = m ++ s /\
  opt_comp (chr "M") m om /\ opt_sec s os /\
  d' = sec_upd (scale os) (upd set_minutes om d) /\ comp om < two64 /\
  sec_range os /\ fd = fdig os /\ k' = lastk (lastk k 5 om) 6 os.
Proof.
  intros Hk5 Hk H. inversion H; subst; try lia.
  - exists [], [], None, None. repeat split; auto; constructor.
  - apply tfrom5 in H3 as (os & H3 & -> & H4 & -> & ->); [|lia..].
    exists (ds ++ [chr "M"]), W0, (Some n), os. rewrite <- app_assoc. repeat split; auto.
    constructor; auto.
  - exists [], (ds ++ [chr "S"]), None, (Some (n, 0, 0%nat)). repeat split; auto; cbn; try lia; constructor; auto.
  - exists [], (ds ++ chr "." :: f ++ [chr "S"]), None, (Some (n, digits_val f, List.length f)).
    repeat split; auto; try constructor; auto.
    apply num_facts in H3 as (H3 & _). destruct f; [congruence|]. reflexivity.
Qed.
Lemma tfrom3 W d d' fd k' : tfrom 3 W d d' fd k' -> exists h m s oh om os, W = h ++ m ++ s /\
  opt_comp (chr "H") h oh /\ opt_comp (chr "M") m om /\ opt_sec s os /\
  d' = sec_upd (scale os) (upd set_minutes om (upd set_hours oh d)) /\
  comp oh < two64 /\ comp om < two64 /\
  sec_range os /\ fd = fdig os /\ k' = lastk (lastk (lastk 3 4 oh) 5 om) 6 os.
Proof.
  intros H. inversion H; subst; try lia.
  - exists [], [], [], None, None, None. repeat split; auto; constructor.
  - apply tfrom4 in H3 as (m & s & om & os & -> & H3 & H4 & -> & H5 & H6 & -> & ->); [|lia..].
    exists (ds ++ [chr "H"]), m, s, (Some n), om, os. rewrite <- app_assoc. repeat split; auto.
    constructor; auto.
  - apply tfrom5 in H3 as (os & H3 & -> & H4 & -> & ->); [|lia..].
    exists [], (ds ++ [chr "M"]), W0, None, (Some n), os. rewrite <- app_assoc.
    repeat split; auto; constructor; auto.
  - exists [], [], (ds ++ [chr "S"]), None, None, (Some (n, 0, 0%nat)).
    repeat split; auto; cbn; try lia; constructor; auto.
  - exists [], [], (ds ++ chr "." :: f ++ [chr "S"]), None, None,
      (Some (n, digits_val f, List.length f)).
    repeat split; auto; try constructor; auto.
    apply num_facts in H3 as (H3 & _). destruct f; [congruence|]. reflexivity.
Qed.

(** points in literals *)
Lemma not_in_cons (x c : N) l : c <> x -> ~ In x l -> ~ In x (c :: l).
Proof. intros H1 H2 H. apply in_inv in H as [H|H]; auto. Qed.
Lemma not_in_app (x : N) a b : ~ In x a -> ~ In x b -> ~ In x (a ++ b).
Proof. intros H1 H2 H. apply in_app_or in H as [H|H]; auto. Qed.

Lemma tfrom_dot k W d d' fd k' : tfrom k W d d' fd k' ->
  match fd with
  | None => ~ In (chr ".") W
  | Some n => In (chr ".") W /\ forall J, forallb is_ascii_digit J = true ->
      after_point (W ++ J) = (n + List.length J)%nat
  end.
Proof.
  induction 1 as [k d|k ds n W d d' fd k' Hn _ _ _ IH|k ds n W d d' fd k' Hn _ _ _ IH
                 |k ds n d Hn _ _|k ds n f d Hn _ _ Hf Hl].
  - auto.
  - destruct fd.
    + destruct IH as [IH1 IH2]. split; [apply in_or_app; right; right; auto|].
      intros J HJ. rewrite <- app_assoc, after_point_app by (eapply num_no_dot; eauto).
      rewrite <- IH2 by auto. reflexivity.
    + apply not_in_app; [eapply num_no_dot; eauto|]. apply not_in_cons; [discriminate|auto].
  - destruct fd.
    + destruct IH as [IH1 IH2]. split; [apply in_or_app; right; right; auto|].
      intros J HJ. rewrite <- app_assoc, after_point_app by (eapply num_no_dot; eauto).
      rewrite <- IH2 by auto. reflexivity.
    + apply not_in_app; [eapply num_no_dot; eauto|]. apply not_in_cons; [discriminate|auto].
  - apply not_in_app; [eapply num_no_dot; eauto|]. apply not_in_cons; [discriminate|auto].
  - split; [apply in_or_app; right; left; auto|].
    intros J HJ. rewrite <- app_assoc, after_point_app by (eapply num_no_dot; eauto).
    cbn [app after_point]. rewrite N.eqb_refl. apply num_facts in Hf as (_ & Hf & _).
    rewrite <- app_assoc, filter_app, filter_digits by auto. cbn [app filter].
    change (is_ascii_digit (chr "S")) with false. cbv iota.
    rewrite filter_digits, app_length by auto. auto.
Qed.

Lemma dfrom_dot k A d d' k' : dfrom k A d d' k' -> ~ In (chr ".") A.
Proof.
  induction 1 as [|k ds n A d d' k' Hn _ _ _ IH|k ds n A d d' k' Hn _ _ _ IH|k ds n A d d' k' Hn _ _ _ IH];
    [auto|..]; (apply not_in_app; [eapply num_no_dot; eauto|]; apply not_in_cons; [discriminate|auto]).
Qed.

Lemma tfrom_head k W d d' fd k' : tfrom k W d d' fd k' -> k' <> k ->
  exists c, In c W /\ is_ascii_digit c = false.
Proof.
  intros H Hk. destruct H; try congruence.
  - exists (chr "H"). split; auto. apply in_or_app; right; left; auto.
  - exists (chr "M"). split; auto. apply in_or_app; right; left; auto.
  - exists (chr "S"). split; auto. apply in_or_app; right; left; auto.
  - exists (chr "."). split; auto. apply in_or_app; right; left; auto.
Qed.

Definition pre (b : bool) : str := (if b then lit "-" else []) ++ lit "P".
Lemma pre_no_dot b : ~ In (chr ".") (pre b).
Proof. destruct b; cbv; intuition discriminate. Qed.

Lemma zero_run_digits x : zero_run x -> forallb is_ascii_digit x = true.
Proof. intros [->|H]; auto. apply num_facts in H. tauto. Qed.

(** the loop never changes [is_p] after the prefix *)
Lemma bstep_is_p c st st' : bstep true c st = Ok st' -> is_p (fst st') = is_p (fst st).
Proof.
  destruct st as [cc d]. unfold bstep, step, fill_component, fill_seconds, step_digit, u64_mul, u64_add.
  cbn [fst Nat.eqb andb orb].
  repeat match goal with |- context [if ?b then _ else _] => destruct b; cbn [bind] end;
    try (intros HH; discriminate HH); try (intros [= <-]; reflexivity).
  - intros H. apply bind_inv in H as (n1 & _ & H). apply bind_inv in H as (n2 & _ & H).
    apply bind_inv in H as (n3 & _ & [= <-]). reflexivity.
  - intros H. apply bind_inv in H as (n1 & _ & H). apply bind_inv in H as (n2 & _ & [= <-]).
    reflexivity.
Qed.
Lemma brun_is_p s : forall st st', brun true s st = Ok st' -> is_p (fst st') = is_p (fst st).
Proof.
  induction s as [|c s IH]; intros st st' H; cbn [brun] in H; [injection H as <-; auto|].
  apply bind_inv in H as (st1 & H1 & H2). rewrite (IH _ _ H2). eapply bstep_is_p; eauto.
Qed.
Lemma finish_is_p st r : finish st = Ok r -> is_p (fst st) = true.
Proof.
  destruct st as [c d]. unfold finish. cbn [fst]. destruct (is_p c); auto. cbn [negb].
  destruct (0 <? number c); intros HH; discriminate HH.
Qed.

Lemma bstep_neg c st st' : bstep true c st = Ok st' -> d_neg (snd st') = d_neg (snd st).
Proof.
  destruct st as [cc d]. unfold bstep, step, fill_component, fill_seconds, step_digit, u64_mul, u64_add.
  cbn [snd Nat.eqb andb orb].
  repeat match goal with |- context [if ?b then _ else _] => destruct b; cbn [bind] end;
    try (intros HH; discriminate HH); try (intros [= <-]; reflexivity).
  - intros H. apply bind_inv in H as (n1 & _ & H). apply bind_inv in H as (n2 & _ & H).
    apply bind_inv in H as (n3 & _ & [= <-]). reflexivity.
  - intros H. apply bind_inv in H as (n1 & _ & H). apply bind_inv in H as (n2 & _ & [= <-]).
    reflexivity.
Qed.

Lemma from_str_has_prefix s r : dur_from_str true s = Ok r -> s <> [] ->
  exists b body, s = pre b ++ body.
Proof.
  intros H Hs. destruct s as [|c0 s]; [congruence|]. unfold dur_from_str in H.
  apply bind_inv in H as (st & H & Hfin). apply finish_is_p in Hfin.
  cbn [run] in H. apply bind_inv in H as (st1 & H1 & H).
  destruct (N.eq_dec c0 (chr "P")) as [->|HP]; [exists false, s; reflexivity|].
  destruct (N.eq_dec c0 (chr "-")) as [->|HM].
  - change (step true 0 (chr "-") (ctx_new, dur_default)) with (Ok (ctx_new, set_neg dur_default)) in H1.
    injection H1 as <-. destruct s as [|c1 s].
    { cbn [run] in H. injection H as <-. discriminate. }
    destruct (N.eq_dec c1 (chr "P")) as [->|HP1]; [exists true, s; reflexivity|].
    exfalso. cbn [run] in H. apply bind_inv in H as (st2 & H2 & H).
    rewrite run_brun in H by lia. apply brun_is_p in H.
    assert (bstep true c1 (ctx_new, set_neg dur_default) = Ok st2) as H3.
    { rewrite <- H2. unfold bstep, step. rewrite (proj2 (N.eqb_neq _ _) HP1). reflexivity. }
    apply bstep_is_p in H3. cbn in H3. congruence.
  - exfalso. assert (bstep true c0 (ctx_new, dur_default) = Ok st1) as H3.
    { rewrite <- H1. unfold bstep, step.
      rewrite (proj2 (N.eqb_neq _ _) HP), (proj2 (N.eqb_neq _ _) HM). reflexivity. }
    pose proof (bstep_neg _ _ _ H3) as Hn. apply bstep_is_p in H3.
    rewrite run_brun1 in H by auto. apply brun_is_p in H. cbn in H3. congruence.
Qed.

Lemma dur_lex_intro b y mo dd t oy om od oh omi os :
  opt_comp (chr "Y") y oy -> opt_comp (chr "M") mo om -> opt_comp (chr "D") dd od ->
  time_lex t (Build_dlit b oy om od oh omi os) ->
  dur_lex (pre b ++ (y ++ mo ++ dd) ++ t) (Build_dlit b oy om od oh omi os).
Proof.
  intros Hy Hm Hd Ht. exists y, mo, dd, t. unfold pre. rewrite <- !app_assoc. auto.
Qed.

Lemma from_str_sound s r : dur_from_str true s = Ok r -> s <> [] ->
  exists l, accepted s l /\ in_range l /\ (after_point s < 20)%nat /\ r = value_of l.
Proof.
  intros H Hs. destruct (from_str_has_prefix s r H Hs) as (b & body & ->).
  assert (bind (brun true body (K false 0 0 true false 0 1, neg_dur b)) finish = Ok r) as H'.
  { rewrite <- from_str_prefix, <- H. unfold pre. rewrite <- app_assoc. auto. }
  clear H Hs. apply bind_inv in H' as (st & H & Hfin).
  destruct (sound_date (List.length body) body 0 (neg_dur b) st r (le_n _) H Hfin)
    as (A & d' & k' & rest & HA & -> & HR).
  pose proof (dfrom_dot _ _ _ _ _ HA) as HAd.
  destruct (dfrom0 _ _ _ _ HA) as (y & mo & dd & oy & om & od & -> & Hy & Hm & Hd & -> & Ry & Rm & Rd & ->).
  pose proof (pre_no_dot b) as Hpd.
  destruct HR as [(-> & Hk & Ht)|(x & bb & -> & HR)].
  - exists (Build_dlit b oy om od None None None).
    assert (dur_lex (pre b ++ (y ++ mo ++ dd)) (Build_dlit b oy om od None None None)) as HL.
    { rewrite <- (app_nil_r (y ++ mo ++ dd)). apply dur_lex_intro; auto. apply time_absent.
      - repeat split.
      - intros (E1 & E2 & E3). cbn in E1, E2, E3. subst. cbn in Hk. lia. }
    assert (~ In (chr ".") (pre b ++ y ++ mo ++ dd)) as Hnd by (apply not_in_app; auto).
    split; [|split; [|split]].
    + exists (pre b ++ (y ++ mo ++ dd)), (pre b ++ (y ++ mo ++ dd)), rest.
      split; [rewrite <- !app_assoc; reflexivity|]. split; [constructor|]. split; auto.
      destruct Ht as [->|[Ht _]]; [apply junk_none|apply junk_idle; auto].
    + unfold in_range. rewrite two64_eq. cbn. auto 10.
    + rewrite app_assoc, after_point_app by auto. destruct Ht as [->|[_ Ht]]; auto. cbn. lia.
    + apply (build_value (Build_dlit b oy om od None None None) None); auto. exact I.
  - assert (exists w J fd k', bb = w ++ J /\ tfrom 3 (x ++ w)
              (upd set_days od (upd set_months om (upd set_years oy (neg_dur b)))) r fd k' /\
              3 < k' /\ trail fd J /\ (x = [] \/ idle x) /\
              (after_point (x ++ chr "T" :: w ++ J) < 20)%nat)
      as (w & J & fd & k' & -> & HT & Hk' & HJ & Hx & Hap).
    { destruct HR as [[Hx HR]|(z & f & -> & Hz & Hf & Hlf & HR)].
      - destruct (sound_time (List.length bb) bb x 3 _ st r (le_n _) Hx ltac:(lia) HR Hfin)
          as (W & J & fd & k' & E & HT & Hk' & HJ).
        destruct (tfrom_head _ _ _ _ _ _ HT ltac:(lia)) as (c & Hc & Hcd).
        assert (exists w, W = x ++ w /\ bb = w ++ J) as (w & -> & ->).
        { apply app_eq_app in E as [w [[E1 E2]|[E1 E2]]].
          - exfalso. apply zero_run_digits in Hx. rewrite forallb_forall in Hx.
            specialize (Hx c). rewrite E1 in Hx. rewrite Hx in Hcd; [discriminate|].
            apply in_or_app; auto.
          - exists w. auto. }
        exists w, J, fd, k'. repeat split; auto.
        + destruct Hx; [auto|right; apply idle_zeros; auto].
        + pose proof (tfrom_dot _ _ _ _ _ _ HT) as Hdot.
          pose proof (digits_no_dot _ (zero_run_digits _ Hx)) as Hxd.
          rewrite after_point_app by auto. cbn [after_point].
          change (chr "T" =? chr ".") with false. cbv iota.
          rewrite <- (after_point_app x) by auto. rewrite app_assoc.
          destruct fd as [fn|].
          * destruct Hdot as [_ Hdot]. destruct HJ as [HJ1 HJ2]. rewrite Hdot; auto.
          * rewrite after_point_app by auto. destruct HJ as [->|[_ HJ]]; auto. cbn; lia.
      - apply sound_dot with (r := r) in HR; auto; [|lia].
        destruct HR as [(_ & _ & Hk3 & _)|(fs & J & -> & Hfs & HJ & _ & Hl & ->)]; [lia|].
        exists (fs ++ [chr "S"]), J, (Some (List.length (f ++ fs))), 6.
        rewrite <- app_assoc. split; auto. split.
        { rewrite <- app_assoc. cbn [app]. rewrite app_assoc.
          apply tf_f; auto; lia. }
        split; [lia|]. split; auto. split; [right; apply (idle_dot z f); auto|].
        rewrite <- app_assoc, after_point_app by (eapply num_no_dot; eauto).
        cbn [app after_point]. rewrite N.eqb_refl. destruct HJ as [HJ1 HJ2].
        apply num_facts in Hfs as (_ & Hfs & _).
        rewrite forallb_app in Hfs. apply andb_prop in Hfs as [_ Hfs].
        rewrite filter_app, filter_digits by auto. cbn [app filter].
        change (is_ascii_digit (chr "T")) with false. cbv iota.
        rewrite filter_app, filter_digits by auto. cbn [app filter].
        change (is_ascii_digit (chr "S")) with false. cbv iota.
        rewrite filter_digits by auto. rewrite !app_length in *. lia. }
    pose proof (tfrom_dot _ _ _ _ _ _ HT) as Hdot.
    destruct (tfrom3 _ _ _ _ _ HT) as
      (h & m & sx & oh & omi & os & EW & Hh & Hmi & Hsx & -> & Rh & Rmi & Rs & -> & ->).
    set (l := Build_dlit b oy om od oh omi os).
    assert (dur_lex (pre b ++ (y ++ mo ++ dd) ++ (lit "T" ++ x ++ w)) l) as HL.
    { apply dur_lex_intro; auto. rewrite EW. apply time_present; auto.
      intros (E1 & E2 & E3). cbn in E1, E2, E3. subst. cbn in Hk'. lia. }
    exists l. split; [|split; [|split]].
    + exists (pre b ++ (y ++ mo ++ dd) ++ (lit "T" ++ x ++ w)),
        ((pre b ++ (y ++ mo ++ dd)) ++ x ++ lit "T" ++ w), J.
      split; [rewrite <- !app_assoc; reflexivity|]. split; [|split; auto].
      * destruct Hx as [->|Hx].
        { cbn [app]. rewrite <- !app_assoc. constructor. }
        replace (pre b ++ (y ++ mo ++ dd) ++ lit "T" ++ x ++ w) with
          ((pre b ++ (y ++ mo ++ dd)) ++ lit "T" ++ x ++ w) by (rewrite <- !app_assoc; auto).
        apply tm_right; auto.
      * destruct (fdig os) as [fn|].
        -- apply junk_digits; [|apply HJ]. apply in_or_app; right. apply in_or_app; right.
           apply in_or_app; right. apply Hdot.
        -- destruct HJ as [->|[HJ _]]; [apply junk_none|]. apply junk_idle; auto.
           apply not_in_app; auto. apply not_in_app; auto. apply not_in_app; auto.
           apply not_in_cons; [discriminate|auto].
    + unfold in_range. rewrite two64_eq. cbn. repeat (split; [assumption|]). exact Rs.
    + rewrite app_assoc, after_point_app by (apply not_in_app; auto). auto.
    + apply (build_value l (scale os)); auto. eapply opt_sec_ok; eauto.
Qed.

(** ** The non-standard spellings are accepted *)
Lemma lex_state s l : dur_lex s l -> in_range l ->
  exists t k nu de, run true 0 s (ctx_new, dur_default) = Ok (K t k 0 true (sdot (l_sec l)) nu de, value_of l) /\
    k <> 0 /\ (t = true -> 3 < k) /\
    match l_sec l with
    | Some (n, m, kf) => nu = m /\ de = 10 ^ N.of_nat kf
    | None => nu = 0 /\ de = 1
    end.
Proof.
  intros H Hr. pose proof (dur_lex_sec s l H) as Hs.
  pose proof (from_str_in_range true s l H Hr) as Hfin.
  assert (s <> []) as Hne.
  { destruct H as (y & mo & dd & t & -> & _). destruct (l_neg l); discriminate. }
  assert (exists (b : bool) body, s = (if b then lit "-" else []) ++ lit "P" ++ body /\
    brun true body (K false 0 0 true false 0 1, neg_dur b) = run true 0 s (ctx_new, dur_default) /\
    b = l_neg l /\ exists y mo dd t, body = y ++ mo ++ dd ++ t /\ opt_comp (chr "Y") y (l_years l) /\
      opt_comp (chr "M") mo (l_months l) /\ opt_comp (chr "D") dd (l_days l) /\ time_lex t l)
    as (b & body & Es & Erun & -> & y & mo & dd & t & -> & Hy & Hm & Hd & Ht).
  { destruct H as (y & mo & dd & t & -> & Hy & Hm & Hd & Ht).
    exists (l_neg l), (y ++ mo ++ dd ++ t). split; auto. split; [|split; [auto|exists y, mo, dd, t; auto]].
    destruct (l_neg l).
    - change (lit "-" ++ lit "P" ++ y ++ mo ++ dd ++ t) with (45 :: 80 :: y ++ mo ++ dd ++ t).
      cbn [run].
      change (step true 0 45 (ctx_new, dur_default)) with (Ok (ctx_new, set_neg dur_default)).
      cbn [bind]. change (step true 1 80 (ctx_new, set_neg dur_default)) with
        (Ok (K false 0 0 true false 0 1, set_neg dur_default)).
      cbn [bind]. rewrite run_brun by lia. reflexivity.
    - change ([] ++ lit "P" ++ y ++ mo ++ dd ++ t) with (80 :: y ++ mo ++ dd ++ t). cbn [run].
      change (step true 0 80 (ctx_new, dur_default)) with (Ok (K false 0 0 true false 0 1, dur_default)).
      cbn [bind]. rewrite run_brun1 by reflexivity. reflexivity. }
  assert (exists t' k nu de dd', run true 0 s (ctx_new, dur_default) =
            Ok (K t' k 0 true (sdot (l_sec l)) nu de, dd') /\
          match l_sec l with
          | Some (n, m, kf) => nu = m /\ de = 10 ^ N.of_nat kf
          | None => nu = 0 /\ de = 1
          end) as (t' & k & nu & de & dd' & E & Hnd).
  { rewrite <- Erun. destruct Hr as (Ry & Rm & Rd & Rh & Rmi & Rs). rewrite two64_eq in *.
    rewrite (brun_date true y mo dd l t (l_neg l)) by auto.
    rewrite !owrap_fits by auto. cbn [bind].
    destruct Ht as [l (_ & _ & Es') _|l h mi se Hnt Hh Hmi Hse].
    - rewrite Es'. cbn [brun]. do 5 eexists. split; [reflexivity|auto].
    - change (lit "T" ++ h ++ mi ++ se) with (chr "T" :: h ++ mi ++ se). cbn [brun].
      rewrite st_T by auto. cbn [bind]. rewrite (brun_time true h mi se l) by auto.
      rewrite !owrap_fits by auto. cbn [bind].
      destruct (l_sec l) as [[[n m] kf]|]; cbn [swrap].
      + cbn [sec_ok] in Hs. pose proof (pow10_fits kf ltac:(lia)). rewrite !wrap_fits by lia.
        cbn [bind]. do 5 eexists. split; [reflexivity|auto].
      + cbn [bind]. do 5 eexists. split; [reflexivity|auto]. }
  destruct s as [|c0 s0]; [congruence|]. unfold dur_from_str in Hfin. rewrite E in Hfin.
  cbn [bind] in Hfin. apply finish_inv in Hfin as (_ & Hk & Ht3 & ->).
  exists t', k, nu, de. auto.
Qed.

Lemma opt_sec_dot s o : opt_sec s o ->
  match o with
  | Some (_, _, S k) => In (chr ".") s /\ forall j, forallb is_ascii_digit j = true ->
      after_point (s ++ j) = (S k + List.length j)%nat
  | _ => ~ In (chr ".") s
  end.
Proof.
  destruct 1 as [|s n Hn|s n f m Hn Hf].
  - auto.
  - apply not_in_app; [eapply num_no_dot; eauto|]. apply not_in_cons; [discriminate|auto].
  - pose proof (num_facts _ _ Hf) as (Hf1 & Hf2 & _).
    destruct (List.length f) as [|k] eqn:E; [destruct f; [congruence|discriminate]|].
    split; [apply in_or_app; right; left; auto|].
    intros j Hj. rewrite <- !app_assoc, after_point_app by (eapply num_no_dot; eauto).
    change (lit ".") with [chr "."]. cbn [app after_point]. rewrite N.eqb_refl.
    rewrite filter_app, filter_digits by auto. change (lit "S") with [chr "S"]. cbn [app filter].
    change (is_ascii_digit (chr "S")) with false. cbv iota.
    rewrite filter_digits, app_length, E by auto. auto.
Qed.

Lemma dur_lex_dot s l : dur_lex s l ->
  match l_sec l with
  | Some (_, _, S k) => In (chr ".") s /\ forall j, forallb is_ascii_digit j = true ->
      after_point (s ++ j) = (S k + List.length j)%nat
  | _ => ~ In (chr ".") s
  end.
Proof.
  intros (y & mo & dd & t & -> & Hy & Hm & Hd & Ht).
  apply opt_comp_no_dot in Hy; [|discriminate]. apply opt_comp_no_dot in Hm; [|discriminate].
  apply opt_comp_no_dot in Hd; [|discriminate].
  assert (~ In (chr ".") (pre (l_neg l) ++ y ++ mo ++ dd)) as Hp.
  { apply not_in_app; [apply pre_no_dot|]. repeat apply not_in_app; auto. }
  replace ((if l_neg l then lit "-" else []) ++ lit "P" ++ y ++ mo ++ dd ++ t) with
    ((pre (l_neg l) ++ y ++ mo ++ dd) ++ t) by (unfold pre; rewrite <- !app_assoc; auto).
  set (p := pre (l_neg l) ++ y ++ mo ++ dd) in *. clearbody p.
  destruct Ht as [l (_ & _ & ->) _|l h mi se _ Hh Hmi Hse].
  - rewrite app_nil_r. auto.
  - apply opt_comp_no_dot in Hh; [|discriminate]. apply opt_comp_no_dot in Hmi; [|discriminate].
    assert (~ In (chr ".") (p ++ lit "T" ++ h ++ mi)) as Hp'.
    { apply not_in_app; auto. apply not_in_app; [apply not_in_cons; [discriminate|auto]|].
      apply not_in_app; auto. }
    replace (p ++ lit "T" ++ h ++ mi ++ se) with ((p ++ lit "T" ++ h ++ mi) ++ se)
      by (rewrite <- !app_assoc; auto).
    apply opt_sec_dot in Hse. destruct (l_sec l) as [[[n m] [|k]]|]; try (apply not_in_app; auto).
    destruct Hse as [H1 H2]. split; [apply in_or_app; auto|].
    intros j Hj. rewrite <- app_assoc, after_point_app by auto. auto.
Qed.

Lemma after_point_move a x b :
  after_point (a ++ x ++ lit "T" ++ b) = after_point (a ++ lit "T" ++ x ++ b).
Proof.
  change (lit "T") with [chr "T"]. cbn [app].
  assert (forall x, List.length (filter is_ascii_digit (x ++ chr "T" :: b)) =
                    List.length (filter is_ascii_digit (chr "T" :: x ++ b))) as HF.
  { clear. intros x. rewrite filter_app. cbn [filter].
    change (is_ascii_digit (chr "T")) with false. cbv iota. rewrite <- filter_app. auto. }
  induction a as [|c a IH]; cbn [app after_point].
  - change (chr "T" =? chr ".") with false. cbv iota.
    induction x as [|c x IHx]; [reflexivity|]. cbn [app after_point].
    destruct (c =? chr "."); [rewrite HF; reflexivity|auto].
  - destruct (c =? chr "."); [|auto].
    rewrite (filter_app _ a (x ++ _)), (filter_app _ a (_ :: _)), !app_length. rewrite HF. auto.
Qed.

Lemma run_app chk a b : forall i st,
  run chk i (a ++ b) st = bind (run chk i a st) (run chk (i + List.length a) b).
Proof.
  induction a as [|c a IH]; intros i st.
  - cbn [app run bind List.length]. rewrite Nat.add_0_r. auto.
  - cbn [app run List.length]. destruct (step chk i c st); cbn [bind]; auto.
    rewrite IH. replace (i + S (List.length a))%nat with (S i + List.length a)%nat by lia. auto.
Qed.

(** characters over which 'T' can be moved *)
Definition movable (dot : bool) (c : N) : bool :=
  (c =? chr ".") || (is_ascii_digit c && (dot || (c =? 48))).

Lemma swap_char c i j i' j' st st1 st2 : movable (is_dot (fst st)) c = true ->
  step true i (chr "T") st = Ok st1 -> step true j c st1 = Ok st2 ->
  exists st1', step true i' c st = Ok st1' /\ step true j' (chr "T") st1' = Ok st2 /\
    is_dot (fst st1') = (is_dot (fst st) || (c =? chr ".")).
Proof.
  destruct st as [cc d]. destruct cc as [p t k n e dot nu de]. cbn [fst is_dot].
  intros Hm H1 H2. unfold step in H1. cbn [is_t number is_empty_n is_dot lastf numer denom is_p] in H1.
  cbn in H1. destruct t; [discriminate|]. destruct (0 <? n) eqn:En; [discriminate|].
  injection H1 as <-. assert (n = 0) as -> by lia.
  unfold movable in Hm. destruct (N.eqb_spec c (chr ".")) as [->|Hc].
  - unfold step in H2. cbn in H2. destruct dot; [discriminate|]. destruct e; [discriminate|].
    injection H2 as <-. eexists. split; [reflexivity|]. split; reflexivity.
  - cbn [orb] in Hm. apply andb_prop in Hm as [Hd Hz].
    unfold step in H2 |- *. rewrite !(digit_not c) in * by (auto; reflexivity).
    unfold step_digit in *. rewrite Hd in *. cbn [negb is_dot numer denom number] in *.
    destruct dot.
    + apply bind_inv in H2 as (n1 & E1 & H2). apply bind_inv in H2 as (n2 & E2 & H2).
      apply bind_inv in H2 as (n3 & E3 & H2). rewrite E1. cbn [bind]. rewrite E2. cbn [bind].
      rewrite E3. cbn [bind]. injection H2 as <-. eexists. split; [reflexivity|].
      split; reflexivity.
    + cbn [orb] in Hz. apply N.eqb_eq in Hz as ->.
      apply bind_inv in H2 as (n1 & E1 & H2). apply bind_inv in H2 as (n2 & E2 & H2).
      rewrite E1. cbn [bind]. rewrite E2. cbn [bind]. injection H2 as <-.
      eexists. split; [reflexivity|].
      apply wrap_true in E1 as [-> _]. apply wrap_true in E2 as [-> _]. split; reflexivity.
Qed.

Fixpoint movables (dot : bool) (x : str) : bool :=
  match x with
  | [] => true
  | c :: x' => movable dot c && movables (dot || (c =? chr ".")) x'
  end.

Lemma swap_run x : forall i i' st st', movables (is_dot (fst st)) x = true ->
  run true i (chr "T" :: x) st = Ok st' -> run true i' (x ++ [chr "T"]) st = Ok st'.
Proof.
  induction x as [|c x IH]; intros i i' st st' Hm H.
  - cbn [app run] in *. rewrite <- H. destruct st as [cc d]. reflexivity.
  - cbn [movables] in Hm. apply andb_prop in Hm as [Hm1 Hm2].
    cbn [run] in H. apply bind_inv in H as (st1 & H1 & H). apply bind_inv in H as (st2 & H2 & H3).
    destruct (swap_char c i (S i) i' i st st1 st2 Hm1 H1 H2) as (st1' & E1 & E2 & E3).
    cbn [app run]. rewrite E1. cbn [bind].
    apply (IH i). { rewrite E3. auto. }
    cbn [run]. rewrite E2. cbn [bind]. rewrite <- H3.
    (* the index is irrelevant for these characters *)
    clear -Hm2. assert (forall y dt ii jj st, movables dt y = true -> run true ii y st = run true jj y st) as HI.
    { induction y as [|c' y IHy]; intros dt ii jj s Hy; auto. cbn [movables] in Hy.
      apply andb_prop in Hy as [Hy1 Hy2]. cbn [run].
      assert (step true ii c' s = step true jj c' s) as ->.
      { unfold movable in Hy1. destruct s as [cc dd]. destruct (N.eqb_spec c' (chr ".")) as [->|]; [reflexivity|].
        cbn [orb] in Hy1. apply andb_prop in Hy1 as [Hy1 _]. unfold step.
        rewrite !(digit_not c') by (auto; reflexivity). reflexivity. }
      destruct (step true jj c' s); cbn [bind]; eauto. }
    eapply HI; eauto.
Qed.

Lemma num0_movables z : forall dot, num z 0 -> movables dot z = true.
Proof.
  intros dot H. apply num_facts in H as (_ & H1 & H2). revert dot.
  induction z as [|c z IH]; intros dot; auto. cbn [forallb] in H1. apply andb_prop in H1 as [Hc Hz].
  rewrite digits_val_cons in H2. cbn [movables].
  assert (c = 48) as ->.
  { assert (10 ^ N.of_nat (List.length z) <> 0) by (apply N.pow_nonzero; lia).
    assert (digit_val c = 0) by nia. unfold is_ascii_digit, digit_val in *. lia. }
  rewrite IH by (auto; lia). unfold movable. cbn. rewrite orb_true_r. reflexivity.
Qed.
Lemma digits_movables f : forallb is_ascii_digit f = true -> movables true f = true.
Proof.
  induction f as [|c f IH]; auto. cbn [forallb movables]. intros H. apply andb_prop in H as [Hc Hf].
  unfold movable. rewrite Hc. cbn [orb andb]. rewrite orb_true_r. auto.
Qed.
Lemma movables_app dot a b : movables dot (a ++ b) = movables dot a && movables (dot || contains (chr ".") a) b.
Proof.
  revert dot; induction a as [|c a IH]; intros dot; cbn [app movables contains existsb].
  - rewrite orb_false_r. auto.
  - rewrite IH. rewrite <- andb_assoc. unfold contains. rewrite <- orb_assoc.
    rewrite (N.eqb_sym (chr ".") c). auto.
Qed.
Lemma idle_movables x : forall dot, idle x -> movables dot x = true.
Proof.
  intros dot [z Hz|z f Hz Hf].
  - apply num0_movables; auto.
  - rewrite movables_app, num0_movables by auto. cbn [andb]. change (lit ".") with [chr "."].
    cbn [app movables]. unfold movable at 1. rewrite N.eqb_refl. cbn [orb andb].
    rewrite orb_true_r. apply digits_movables; auto.
Qed.

Lemma moved_run core s st st' : t_moved core s -> run true 0 s st = Ok st' -> run true 0 core st = Ok st'.
Proof.
  intros H. destruct H as [s|a x b Hx]; auto. intros H.
  rewrite run_app in H. apply bind_inv in H as (st1 & H1 & H2).
  rewrite (app_assoc (lit "T")), run_app in H2. apply bind_inv in H2 as (st2 & H2 & H3).
  rewrite run_app, H1. cbn [bind]. rewrite (app_assoc x), run_app.
  change (lit "T") with [chr "T"] in *. cbn [app] in H2.
  rewrite (swap_run x _ (0 + List.length a) st1 st2 (idle_movables x _ Hx) H2). cbn [bind].
  rewrite <- H3. f_equal. rewrite !app_length. cbn [List.length]. lia.
Qed.

Lemma after_point_moved core s j : t_moved core s -> after_point (core ++ j) = after_point (s ++ j).
Proof.
  destruct 1 as [|a x b Hx]; auto. rewrite <- !app_assoc. apply after_point_move.
Qed.

Lemma moved_nil s : t_moved [] s -> s = [].
Proof.
  remember [] as c eqn:E. destruct 1 as [|a x b Hx]; auto.
  apply app_eq_nil in E as [_ E]. apply app_eq_nil in E as [_ E]. discriminate.
Qed.

Lemma idle_no_dot_cases x : idle x -> num x 0 \/ exists z f, x = z ++ lit "." ++ f /\ num z 0 /\
  forallb is_ascii_digit f = true.
Proof. intros [z Hz|z f Hz Hf]; eauto 10. Qed.

Lemma moved_In c core s : t_moved core s -> In c core <-> In c s.
Proof. destruct 1; [tauto|]. rewrite !in_app_iff. tauto. Qed.

Lemma from_str_accepted s' l : accepted s' l -> in_range l -> (after_point s' < 20)%nat ->
  dur_from_str true s' = Ok (value_of l).
Proof.
  intros (s & core & j & -> & Hm & HL & Hj) Hr Hap.
  destruct (lex_state s l HL Hr) as (t & k & nu & de & Hrun & Hk & Ht & Hsec).
  pose proof (dur_lex_dot s l HL) as Hdot. pose proof (dur_lex_sec s l HL) as Hsok.
  assert (core <> []) as Hne.
  { intros ->. apply moved_nil in Hm as ->. destruct HL as (y & mo & dd & tt & E & _).
    destruct (l_neg l); discriminate. }
  assert (dur_from_str true (core ++ j) = bind (run true 0 (core ++ j) (ctx_new, dur_default)) finish)
    as ->. { destruct core; [congruence|reflexivity]. }
  rewrite run_app, (moved_run core s _ _ Hm Hrun). cbn [bind].
  rewrite (after_point_moved core s j Hm) in Hap.
  assert (forall ii, run true ii j (K t k 0 true (sdot (l_sec l)) nu de, value_of l) =
                     brun true j (K t k 0 true (sdot (l_sec l)) nu de, value_of l)) as ->.
  { assert (forall y ii st, (forall c, In c y -> is_ascii_digit c = true \/ c = chr ".") ->
              run true ii y st = brun true y st) as HI.
    { induction y as [|c y IH]; intros ii st Hy; auto. cbn [run brun].
      assert (step true ii c st = bstep true c st) as ->.
      { destruct st as [cc d]. destruct (Hy c (or_introl eq_refl)) as [Hc| ->]; [|reflexivity].
        unfold bstep, step. rewrite !(digit_not c) by (auto; reflexivity). reflexivity. }
      destruct (bstep true c st); cbn [bind]; auto. apply IH. intros c' Hc'. apply Hy. right; auto. }
    intros ii. apply HI. intros c Hc.
    assert (forall f, forallb is_ascii_digit f = true -> In c f -> is_ascii_digit c = true) as HF.
    { intros f Hf Hi. rewrite forallb_forall in Hf. auto. }
    destruct Hj as [|x Hnd Hx|f Hd Hf]; [destruct Hc| |left; eauto].
    destruct Hx as [z Hz|z f Hz Hf].
    - apply num_facts in Hz as (_ & Hz & _). left; eauto.
    - apply num_facts in Hz as (_ & Hz & _). apply in_app_or in Hc as [Hc|Hc]; [left; eauto|].
      apply in_app_or in Hc as [Hc|Hc]; [|left; eauto]. apply in_inv in Hc as [Hc|[]]. auto. }
  assert (forall e dot nu de, finish (K t k 0 e dot nu de, value_of l) = Ok (value_of l)) as HF.
  { intros e dt nu' de'. unfold finish, K. cbn [number is_p lastf is_t negb].
    change (0 <? 0) with false. assert ((k =? 0) = false) as -> by lia. cbv iota.
    destruct t; [specialize (Ht eq_refl); assert ((k <=? 3) = false) as -> by lia; reflexivity|].
    rewrite andb_false_r. auto. }
  destruct Hj as [|x Hnd Hx|f Hd Hf].
  - cbn [brun bind]. apply HF.
  - assert (sdot (l_sec l) = false /\ nu = 0 /\ de = 1) as (-> & -> & ->).
    { unfold sdot. destruct (l_sec l) as [[[n m] [|kf]]|]; [|tauto|tauto].
      cbn in Hsok. destruct Hsec as [-> ->]. change (10 ^ N.of_nat 0) with 1 in *. lia. }
    destruct Hx as [z Hz|z f Hz Hf].
    + rewrite <- (app_nil_r z), (brun_num _ _ _ _ _ _ _ _ _ _ Hz).
      rewrite wrap_fits by auto. cbn [bind brun]. apply HF.
    + rewrite (brun_num _ _ _ _ _ _ _ _ _ _ Hz). rewrite wrap_fits by auto. cbn [bind].
      change (lit ".") with [chr "."] in *. cbn [app brun]. rewrite st_dot. cbn [bind].
      assert (List.length f < 20)%nat as Hl.
      { rewrite after_point_app in Hap by auto.
        rewrite after_point_app in Hap by (eapply num_no_dot; eauto).
        cbn [app after_point] in Hap. rewrite N.eqb_refl, filter_digits in Hap by auto. auto. }
      pose proof (pow10_fits _ Hl). pose proof (digits_val_bound f Hf).
      rewrite brun_fraction by (auto; pose proof two64_big; lia).
      rewrite !wrap_fits by lia. cbn [bind]. apply HF.
  - destruct (l_sec l) as [[[n m] [|kf]]|]; try tauto. cbn [sdot]. destruct Hsec as [-> ->].
    destruct Hdot as [_ Hdot]. rewrite Hdot in Hap by auto. cbn [sec_ok] in Hsok.
    assert (10 ^ N.of_nat (S kf + List.length f) < two64) as Hp by (apply pow10_fits; auto).
    rewrite Nat2N.inj_add, N.pow_add_r in Hp. pose proof (digits_val_bound f Hf).
    assert (10 ^ N.of_nat (S kf) < two64) by (apply pow10_fits; lia).
    rewrite brun_fraction by (auto; lia). rewrite !wrap_fits by nia. cbn [bind]. apply HF.
Qed.

Lemma from_str_exact s r : dur_from_str true s = Ok r <->
  (s = [] /\ r = dur_default) \/
  exists l, accepted s l /\ in_range l /\ (after_point s < 20)%nat /\ r = value_of l.
Proof.
  split.
  - intros H. destruct s as [|c s].
    + left. injection H as <-. auto.
    + right. apply from_str_sound; auto. discriminate.
  - intros [[-> ->]|(l & H1 & H2 & H3 & ->)]; [reflexivity|]. apply from_str_accepted; auto.
Qed.

(** ** f64 values of integers below 2^53 and their display *)
Lemma digits2_log p : Zpos (digits2_pos p) = (Z.log2 (Zpos p) + 1)%Z.
Proof.
  induction p as [p IH|p IH|]; cbn [digits2_pos]; auto.
  - rewrite Pos2Z.inj_succ, IH, (Pos2Z.inj_xI p), Z.log2_succ_double by lia. lia.
  - rewrite Pos2Z.inj_succ, IH, (Pos2Z.inj_xO p), Z.log2_double by lia. lia.
Qed.

Lemma shift_pos_val d p : Zpos (shift_pos d p) = (Zpos p * 2 ^ Zpos d)%Z.
Proof. rewrite shift_pos_correct, Zpower_pos_nat, Zpower_nat_Z, positive_nat_Z. lia. Qed.

Lemma binary_round_aux_exact m e : Zpos (digits2_pos m) = 53%Z -> (-1074 <= e <= 971)%Z ->
  binary_round_aux 53 1024 false (Zpos m) e loc_Exact = S754_finite false m e.
Proof.
  intros Hd He. unfold binary_round_aux, shr_fexp. cbn [Zdigits2 shr_record_of_loc].
  assert (fexp 53 1024 (Zpos (digits2_pos m) + e) - e = 0)%Z as E.
  { unfold fexp, emin. rewrite Hd. lia. }
  rewrite E. cbn [shr shr_m loc_of_shr_record round_nearest_even Zdigits2]. rewrite E.
  cbn [shr shr_m]. assert (Zle_bool e (1024 - 53) = true) as -> by (apply Z.leb_le; lia). auto.
Qed.

Lemma f64_small n : 0 < n < 2 ^ 53 -> exists m e, f64_of_N n = S754_finite false m e /\
  (-52 <= e <= 0)%Z /\ Zpos m = (Z.of_N n * 2 ^ (- e))%Z.
Proof.
  intros [H1 H2]. destruct n as [|p]; [lia|]. unfold f64_of_N. change (Z.of_N (N.pos p)) with (Z.pos p). cbn [binary_normalize].
  unfold binary_round.
  assert (0 <= Z.log2 (Zpos p) < 53)%Z as HL.
  { split; [apply Z.log2_nonneg|]. apply Z.log2_lt_pow2; lia. }
  pose proof (digits2_log p) as HD.
  assert (fexp 53 1024 (Zpos (digits2_pos p) + 0) = Z.log2 (Zpos p) - 52)%Z as ->.
  { unfold fexp, emin. rewrite HD. lia. }
  unfold shl_align. rewrite Z.sub_0_r.
  destruct (Z.log2 (Z.pos p) - 52)%Z as [|d|d] eqn:E; [|lia|].
  - exists p, 0%Z. rewrite binary_round_aux_exact by lia. split; auto. lia.
  - exists (shift_pos d p), (Zneg d). rewrite binary_round_aux_exact.
    + split; auto. split; [lia|]. rewrite shift_pos_val. reflexivity.
    + rewrite digits2_log, shift_pos_val, Z.log2_mul_pow2 by lia. lia.
    + lia.
Qed.

(** uniqueness of decimal notation *)
Lemma dec_unique ds n : forallb is_ascii_digit ds = true -> digits_val ds = n -> n <> 0 ->
  (exists c t, ds = c :: t /\ c <> 48) -> ds = dec n.
Proof.
  intros H1 H2 Hn (c & t & -> & Hc). destruct (dec_spec n) as (D1 & D2 & _ & D3 & _).
  destruct (D3 Hn) as (c' & t' & E & Hc'). rewrite E in *.
  assert (forall c t, forallb is_ascii_digit (c :: t) = true -> c <> 48 ->
    10 ^ N.of_nat (List.length t) <= digits_val (c :: t) < 10 * 10 ^ N.of_nat (List.length t)) as HB.
  { clear. intros c t H Hc. pose proof (digits_val_bound _ H) as HB. cbn [List.length] in HB.
    rewrite Nat2N.inj_succ, N.pow_succ_r' in HB. split; auto.
    rewrite digits_val_cons. cbn [forallb] in H. apply andb_prop in H as [H _].
    assert (1 <= digit_val c) by (unfold digit_val, is_ascii_digit in *; lia). nia. }
  pose proof (HB c t H1 Hc) as B1. pose proof (HB c' t' D1 Hc') as B2.
  assert (List.length t = List.length t') as El.
  { rewrite H2 in B1. rewrite D2 in B2.
    destruct (Nat.lt_trichotomy (List.length t) (List.length t')) as [L|[L|L]]; auto; exfalso.
    - assert (10 ^ N.of_nat (S (List.length t)) <= 10 ^ N.of_nat (List.length t'))
        by (apply N.pow_le_mono_r; lia).
      rewrite Nat2N.inj_succ, N.pow_succ_r' in *. lia.
    - assert (10 ^ N.of_nat (S (List.length t')) <= 10 ^ N.of_nat (List.length t))
        by (apply N.pow_le_mono_r; lia).
      rewrite Nat2N.inj_succ, N.pow_succ_r' in *. lia. }
  apply digits_val_inj; auto; [cbn; lia|]. congruence.
Qed.

Lemma zeros_val k : digits_val (zeros k) = 0.
Proof. rewrite <- (app_nil_r (zeros k)), digits_val_zeros. auto. Qed.

Lemma dec_zeros d k : d <> 0 -> dec (d * 10 ^ N.of_nat k) = dec d ++ zeros k.
Proof.
  intros Hd. symmetry. apply dec_unique.
  - rewrite forallb_app, dec_digits, zeros_digits. auto.
  - rewrite digits_val_app, dec_val, zeros_val, zeros_length. lia.
  - assert (10 ^ N.of_nat k <> 0) by (apply N.pow_nonzero; lia). nia.
  - destruct (dec_spec d) as (_ & _ & _ & D & _). destruct (D Hd) as (c & t & -> & Hc).
    exists c, (t ++ zeros k). auto.
Qed.

Lemma in_interval_exact n m e d q : (e <= 0)%Z -> (0 <= q)%Z -> Zpos m = (Z.of_N n * 2 ^ (- e))%Z ->
  in_interval (Zpos m) e d q = true -> (d * 10 ^ q = Z.of_N n)%Z.
Proof.
  intros He Hq Hm. unfold in_interval, dec_cmp.
  rewrite (Z.max_l q 0), (Z.max_r (- q) 0), (Z.max_r (e - 2) 0), (Z.max_l (- (e - 2)) 0) by lia.
  set (lo := if _ : bool then _ else _).
  replace (- (e - 2))%Z with (- e + 2)%Z by lia. rewrite Z.pow_add_r by lia.
  change (10 ^ 0)%Z with 1%Z. change (2 ^ 0)%Z with 1%Z. change (2 ^ 2)%Z with 4%Z.
  rewrite !Z.mul_1_r.
  assert (4 * Zpos m - 2 <= lo)%Z as Hlo by (unfold lo; destruct (_ && _); lia). clearbody lo.
  set (X := (d * 10 ^ q)%Z). set (s := (2 ^ (- e))%Z) in *.
  assert (0 < s)%Z as Hs by (apply Z.pow_pos_nonneg; lia). clearbody X s.
  intros H. assert (lo <= X * (s * 4) <= 4 * Zpos m + 2)%Z as [L U].
  { destruct (Z.compare_spec (X * (s * 4)) lo); destruct (Z.compare_spec (X * (s * 4)) (4 * Z.pos m + 2));
      try discriminate H; lia. }
  rewrite Hm in *. nia.
Qed.

Lemma shortest_small n m e fuel : forall k, 0 < n -> (e <= 0)%Z -> Zpos m = (Z.of_N n * 2 ^ (- e))%Z ->
  let L := Z.of_nat (List.length (dec n)) in
  (1 <= k <= L)%Z -> (L - k <= Z.of_nat fuel)%Z ->
  let '(d, q) := shortest fuel (Zpos m) e (L - 1) k in (d * 10 ^ q = Z.of_N n /\ 0 <= q)%Z.
Proof.
  induction fuel as [|f IH]; intros k Hn He Hm L Hk Hf.
  all: cbn [shortest]; replace (L - 1 - k + 1)%Z with (L - k)%Z by lia;
    set (q := (L - k)%Z) in *.
  all: unfold floor_scaled.
  all: rewrite (Z.max_l q 0), (Z.max_r (- q) 0), (Z.max_r e 0), (Z.max_l (- e) 0) by lia.
  all: change (10 ^ 0)%Z with 1%Z; change (2 ^ 0)%Z with 1%Z; rewrite !Z.mul_1_r.
  all: set (fl := (Z.pos m / (2 ^ (- e) * 10 ^ q))%Z).
  all: set (c := (2 * (Z.pos m mod (2 ^ (- e) * 10 ^ q)) ?= 2 ^ (- e) * 10 ^ q)%Z).
  all: set (near := match c with Gt => (fl + 1)%Z | _ => fl end).
  all: set (far := match c with Gt => fl | _ => (fl + 1)%Z end).
  all: destruct (in_interval (Z.pos m) e near q) eqn:E1;
    [split; [apply (in_interval_exact n m e near q); auto; lia|lia]|].
  all: destruct (in_interval (Z.pos m) e far q) eqn:E2;
    [split; [apply (in_interval_exact n m e far q); auto; lia|lia]|].
  all: destruct (Z.eq_dec k L) as [->|Hne];
    [ exfalso; assert (q = 0)%Z as Eq by (unfold q; lia); clearbody q; subst q;
      assert (0 < 2 ^ (- e))%Z as Hs by (apply Z.pow_pos_nonneg; lia);
      assert (near = Z.of_N n) as En;
      [ unfold near, c, fl; change (10 ^ 0)%Z with 1%Z; rewrite !Z.mul_1_r, Hm;
        rewrite Z.mod_mul, Z.div_mul by lia; 
        destruct (Z.compare_spec (2 * 0) (2 ^ (- e))); lia
      | rewrite En in E1; unfold in_interval, dec_cmp in E1;
        rewrite (Z.max_r (e - 2) 0), (Z.max_l (- (e - 2)) 0) in E1 by lia;
        replace (- (e - 2))%Z with (- e + 2)%Z in E1 by lia; rewrite Z.pow_add_r in E1 by lia;
        change (10 ^ Z.max 0 0)%Z with 1%Z in E1; change (10 ^ Z.max (- 0) 0)%Z with 1%Z in E1;
        change (2 ^ 0)%Z with 1%Z in E1; change (2 ^ 2)%Z with 4%Z in E1;
        rewrite !Z.mul_1_r in E1;
        replace (Z.of_N n * (2 ^ (- e) * 4))%Z with (4 * Zpos m)%Z in E1 by lia;
        set (lo := if _ : bool then (4 * Zpos m - 1)%Z else _) in E1;
        assert (lo < 4 * Zpos m)%Z as Hlo by (unfold lo; destruct (_ && _); lia); clearbody lo;
        destruct (Z.compare_spec (4 * Z.pos m) lo); try lia;
        destruct (Z.compare_spec (4 * Z.pos m) (4 * Z.pos m + 2)); try lia; discriminate E1 ]
    |].
  - lia.
  - apply IH; auto; lia.
Qed.

Lemma f64_display_small n : n < 2 ^ 53 -> f64_display (f64_of_N n) = dec n.
Proof.
  intros Hn. destruct (N.eq_dec n 0) as [->|Hn0]; [reflexivity|].
  destruct (f64_small n) as (m & e & -> & He & Hm); [lia|]. cbn [f64_display].
  assert (0 < 2 ^ (- e))%Z as Hs by (apply Z.pow_pos_nonneg; lia).
  assert (log10_floor (Zpos m) e = Z.of_nat (List.length (dec n)) - 1)%Z as ->.
  { unfold log10_floor. rewrite (Z.max_r e 0), (Z.max_l (- e) 0) by lia.
    change (2 ^ 0)%Z with 1%Z. rewrite Z.mul_1_r.
    assert ((2 ^ (- e) <=? Zpos m)%Z = true) as -> by (apply Z.leb_le; nia).
    rewrite Hm, Z.div_mul, N2Z.id by lia. auto. }
  assert (1 <= List.length (dec n) <= 17)%nat as HL.
  { split.
    - pose proof (dec_nonempty n). destruct (dec n); [congruence|cbn; lia].
    - apply dec_length; [|lia]. apply N.lt_trans with (2 ^ 53); auto. }
  pose proof (shortest_small n m e 16 1 ltac:(lia) ltac:(lia) Hm ltac:(lia) ltac:(lia)) as HS.
  destruct (shortest 16 (Z.pos m) e (Z.of_nat (List.length (dec n)) - 1) 1) as [d q].
  destruct HS as [HS Hq]. unfold print_dec. rewrite (proj2 (Z.leb_le 0 q) Hq). cbn [app].
  assert (0 < 10 ^ q)%Z as Hp by (apply Z.pow_pos_nonneg; lia).
  assert (0 < d)%Z as Hd by nia.
  rewrite <- dec_zeros by lia. f_equal. apply N2Z.inj.
  rewrite N2Z.inj_mul, N2Z.inj_pow, Z2N.id, nat_N_Z, Z2Nat.id by lia. auto.
Qed.

Lemma f64_gtb_small n : n < 2 ^ 53 -> f64_gtb (f64_of_N n) f64_zero = (0 <? n).
Proof.
  intros Hn. destruct (N.eq_dec n 0) as [->|Hn0]; [reflexivity|].
  destruct (f64_small n) as (m & e & -> & He & Hm); [lia|].
  change (f64_gtb (S754_finite false m e) f64_zero) with true. lia.
Qed.

(** ** Display then parse *)
Definition opt (v : N) : option N := if 0 <? v then Some v else None.

Lemma comp_text_opt v c : opt_comp c (comp_text v c) (opt v).
Proof.
  unfold comp_text, opt. destruct (0 <? v); [|constructor].
  constructor. apply num_dec.
Qed.
Lemma comp_opt v : comp (opt v) = v.
Proof. unfold opt. destruct (0 <? v) eqn:E; cbn; lia. Qed.

Definition display_lit (d : duration) (n : N) : dlit :=
  let zero := (d_years d =? 0) && (d_months d =? 0) && (d_days d =? 0) && (d_hours d =? 0)
              && (d_minutes d =? 0) && (n =? 0) in
  {| l_neg := d_neg d;
     l_years := if zero then Some 0 else opt (d_years d);
     l_months := opt (d_months d); l_days := opt (d_days d);
     l_hours := opt (d_hours d); l_minutes := opt (d_minutes d);
     l_sec := if 0 <? n then Some (n, 0, 0%nat) else None |}.

Lemma display_lex d n : n < 2 ^ 53 -> d_seconds d = b64_of_N n ->
  dur_lex (dur_display d) (display_lit d n).
Proof.
  intros Hn Hs. unfold dur_display. rewrite Hs.
  change (b64_of_N n) with (f64_of_N n). rewrite f64_gtb_small, f64_display_small by auto.
  set (sec := if 0 <? n then dec n ++ lit "S" else []).
  set (ds := comp_text (d_years d) (chr "Y") ++ comp_text (d_months d) (chr "M")
             ++ comp_text (d_days d) (chr "D")).
  set (ts := comp_text (d_hours d) (chr "H") ++ comp_text (d_minutes d) (chr "M") ++ sec).
  assert (forall v c, comp_text v c = [] <-> v = 0) as HC.
  { intros v c. unfold comp_text. destruct (0 <? v) eqn:E; split; intros H; auto; try lia.
    apply app_eq_nil in H as [_ H]. discriminate. }
  assert (sec = [] <-> n = 0) as HS.
  { unfold sec. destruct (0 <? n) eqn:E; split; intros H; auto; try lia.
    apply app_eq_nil in H as [_ H]. discriminate. }
  assert (ts = [] <-> d_hours d = 0 /\ d_minutes d = 0 /\ n = 0) as HT.
  { unfold ts. rewrite <- HS, <- (HC (d_hours d) (chr "H")), <- (HC (d_minutes d) (chr "M")).
    split; [intros H|intros (-> & -> & ->); auto].
    apply app_eq_nil in H as [H1 H]. apply app_eq_nil in H. tauto. }
  assert (ds = [] <-> d_years d = 0 /\ d_months d = 0 /\ d_days d = 0) as HD.
  { unfold ds. rewrite <- (HC (d_years d) (chr "Y")), <- (HC (d_months d) (chr "M")), <- (HC (d_days d) (chr "D")).
    split; [intros H|intros (-> & -> & ->); auto].
    apply app_eq_nil in H as [H1 H]. apply app_eq_nil in H. tauto. }
  assert (pre (d_neg d) = if d_neg d then lit "-P" else lit "P") as Epre
    by (destruct (d_neg d); reflexivity).
  rewrite <- Epre. unfold pre. unfold display_lit.
  set (zero := _ && _ && _ && _ && _ && _).
  destruct ts as [|t0 ts0] eqn:Et.
  - destruct HT as [HT _]. specialize (HT eq_refl) as (Eh & Em & En).
    destruct ds as [|d0 ds0] eqn:Ed.
    + destruct HD as [HD _]. specialize (HD eq_refl) as (Ey & Emo & Edd).
      assert (zero = true) as -> by (unfold zero; rewrite Eh, Em, En, Ey, Emo, Edd; reflexivity).
      rewrite Eh, Em, En, Emo, Edd. exists (lit "0Y"), [], [], []. rewrite <- app_assoc.
      split; auto. split; [|split; [constructor|split; [constructor|]]].
      * apply (oc_some (chr "Y") (lit "0") 0). apply (num_one 0). lia.
      * apply time_absent; [repeat split|]. intros (E & _). discriminate.
    + assert (zero = false) as ->.
      { unfold zero. destruct HD as [_ HD].
        destruct (d_years d =? 0) eqn:A; auto. destruct (d_months d =? 0) eqn:B; auto.
        destruct (d_days d =? 0) eqn:C; auto. exfalso.
        assert (d0 :: ds0 = []) by (apply HD; lia). discriminate. }
      exists (comp_text (d_years d) (chr "Y")), (comp_text (d_months d) (chr "M")),
        (comp_text (d_days d) (chr "D")), [].
      rewrite app_nil_r. fold ds. rewrite Ed, <- app_assoc. split; auto.
      split; [apply comp_text_opt|]. split; [apply comp_text_opt|]. split; [apply comp_text_opt|].
      rewrite Eh, Em, En. apply time_absent; [repeat split|].
      unfold no_date. cbn [l_years l_months l_days]. intros (A & B & C).
      assert (forall v, opt v = None -> v = 0) as HO.
      { intros v. unfold opt. destruct (0 <? v) eqn:E; [discriminate|]. lia. }
      apply HO in A, B, C. destruct HD as [_ HD]. discriminate (HD (conj A (conj B C))).
  - assert (zero = false) as ->.
    { unfold zero. destruct HT as [_ HT].
      destruct (d_hours d =? 0) eqn:A; [|rewrite !andb_false_r; auto].
      destruct (d_minutes d =? 0) eqn:B; [|rewrite !andb_false_r; auto].
      destruct (n =? 0) eqn:C; [|rewrite !andb_false_r; auto]. exfalso.
      assert (t0 :: ts0 = []) by (apply HT; lia). discriminate. }
    rewrite <- Et. unfold ts, ds.
    exists (comp_text (d_years d) (chr "Y")), (comp_text (d_months d) (chr "M")),
      (comp_text (d_days d) (chr "D")),
      (lit "T" ++ comp_text (d_hours d) (chr "H") ++ comp_text (d_minutes d) (chr "M") ++ sec).
    split; [rewrite <- !app_assoc; auto|].
    split; [apply comp_text_opt|]. split; [apply comp_text_opt|]. split; [apply comp_text_opt|].
    apply time_present; [|apply comp_text_opt|apply comp_text_opt|].
    + unfold no_time. cbn [l_hours l_minutes l_sec]. intros (A & B & C).
      assert (forall v, opt v = None -> v = 0) as HO.
      { intros v. unfold opt. destruct (0 <? v) eqn:E; [discriminate|]. lia. }
      apply HO in A, B. assert (n = 0) by (destruct (0 <? n) eqn:E; [discriminate|lia]).
      destruct HT as [_ HT]. discriminate (HT (conj A (conj B H))).
    + unfold sec. cbn [l_sec]. destruct (0 <? n); [|constructor].
      apply os_int. apply num_dec.
Qed.

Lemma display_round_trip chk d n : 
  d_years d < 2 ^ 64 -> d_months d < 2 ^ 64 -> d_days d < 2 ^ 64 -> d_hours d < 2 ^ 64 ->
  d_minutes d < 2 ^ 64 -> n < 2 ^ 53 -> d_seconds d = b64_of_N n ->
  dur_from_str chk (dur_display d) = Ok d.
Proof.
  intros Hy Hm Hd Hh Hmi Hn Hs. pose proof (display_lex d n Hn Hs) as HL.
  rewrite (from_str_in_range chk _ _ HL).
  - f_equal. unfold value_of, display_lit. cbn [l_neg l_years l_months l_days l_hours l_minutes l_sec].
    rewrite !comp_opt. set (zero := _ && _ && _ && _ && _ && _).
    assert (comp (if zero then Some 0 else opt (d_years d)) = d_years d) as ->.
    { destruct zero eqn:E; [|apply comp_opt]. unfold zero in E. cbn [comp]. lia. }
    assert (sec_value (if 0 <? n then Some (n, 0, 0%nat) else None) = d_seconds d) as ->.
    { rewrite Hs. destruct (0 <? n) eqn:E; [reflexivity|]. assert (n = 0) as -> by lia. reflexivity. }
    destruct d; reflexivity.
  - unfold in_range, display_lit. cbn [l_neg l_years l_months l_days l_hours l_minutes l_sec].
    rewrite !comp_opt. set (zero := _ && _ && _ && _ && _ && _).
    repeat split; auto.
    + destruct zero; [reflexivity|]. rewrite comp_opt. auto.
    + destruct (0 <? n); auto. split; [|lia]. apply N.lt_trans with (2 ^ 53); auto.
Qed.

(** ** to_std_duration *)
Lemma f64_to_uint_small n : n < 2 ^ 53 -> f64_to_uint u64_max (f64_of_N n) = n.
Proof.
  intros Hn. destruct (N.eq_dec n 0) as [->|Hn0]; [reflexivity|].
  destruct (f64_small n) as (m & e & -> & He & Hm); [lia|]. cbn [f64_to_uint].
  assert (n <= u64_max) as Hu.
  { apply N.le_trans with (2 ^ 53); [lia|]. apply N.leb_le. vm_compute. reflexivity. }
  destruct e as [|p|p]; [|lia|].
  - change (2 ^ (- 0))%Z with 1%Z in Hm. lia.
  - change (- Zneg p)%Z with (Zpos p) in Hm.
    assert (N.pos m / 2 ^ N.pos p = n) as ->; [|lia].
    assert (N.pos m = n * 2 ^ N.pos p) as ->.
    { apply N2Z.inj. rewrite N2Z.inj_mul, N2Z.inj_pow. exact Hm. }
    apply N.div_mul, N.pow_nonzero. lia.
Qed.

Lemma f64_sub_self n : n < 2 ^ 53 -> f64_sub (f64_of_N n) (f64_of_N n) = S754_zero false.
Proof.
  intros Hn. destruct (N.eq_dec n 0) as [->|Hn0]; [reflexivity|].
  destruct (f64_small n) as (m & e & -> & He & Hm); [lia|].
  unfold f64_sub, SFsub. rewrite Z.sub_diag. reflexivity.
Qed.

Lemma wrap_add_l chk a n : bind (u64_wrap chk n) (fun t => u64_add chk a t) = u64_wrap chk (a + n).
Proof.
  pose proof (wrap_pow chk n 1 a ltac:(lia)) as H.
  replace (a + n) with (n * 1 + a) by lia. rewrite <- H.
  destruct (u64_wrap chk n); cbn [bind]; auto. unfold u64_add. f_equal. lia.
Qed.
Lemma wrap_mul_l chk p n : 1 <= p -> bind (u64_wrap chk n) (fun t => u64_mul chk p t) = u64_wrap chk (p * n).
Proof.
  intros Hp. pose proof (wrap_pow chk n p 0 Hp) as H.
  replace (p * n) with (n * p + 0) by lia. rewrite <- H.
  destruct (u64_wrap chk n); cbn [bind]; auto. unfold u64_mul. f_equal. lia.
Qed.

Lemma to_std_err chk d : to_std_duration chk d = Err <-> 0 < d_years d \/ 0 < d_months d.
Proof.
  unfold to_std_duration. destruct ((0 <? d_years d) || (0 <? d_months d)) eqn:E.
  - split; auto. intros _. lia.
  - split; [|lia]. intros H. exfalso. revert H. unfold u64_mul, u64_add.
    assert (forall n (f : N -> res (N * N)), (forall v, f v <> Err) -> bind (u64_wrap chk n) f <> Err) as HB.
    { intros n f Hf. pose proof (wrap_not_err chk n). destruct (u64_wrap chk n); cbn [bind]; congruence. }
    clear E. do 6 (apply HB; intros ?v). unfold std_duration_new. destruct (_ <? _); [discriminate|].
    destruct (_ <? _); discriminate.
Qed.

Lemma to_std_integral chk d n : d_years d = 0 -> d_months d = 0 -> n < 2 ^ 53 ->
  d_seconds d = b64_of_N n ->
  to_std_duration chk d =
  bind (u64_wrap chk (n + 60 * (d_minutes d + 60 * (d_hours d + 24 * d_days d)))) (fun t => Ok (t, 0)).
Proof.
  intros Hy Hm Hn Hs. unfold to_std_duration. rewrite Hy, Hm, Hs.
  change (b64_of_N n) with (f64_of_N n).
  change ((0 <? 0) || (0 <? 0)) with false. cbv iota.
  rewrite f64_to_uint_small, f64_sub_self by auto.
  change (f64_to_uint u32_max (f64_mul (S754_zero false) (f64_of_N nanos_per_sec))) with 0.
  cbv zeta.
  rewrite <- (wrap_add_l chk n), <- (wrap_mul_l chk 60 (d_minutes d + _)) by lia.
  rewrite <- (wrap_add_l chk (d_minutes d)), <- (wrap_mul_l chk 60 (d_hours d + _)) by lia.
  rewrite <- (wrap_add_l chk (d_hours d)). unfold u64_mul at 1.
  destruct (u64_wrap chk (24 * d_days d)); cbn [bind]; auto.
  destruct (u64_add chk (d_hours d) a); cbn [bind]; auto.
  destruct (u64_mul chk 60 a0); cbn [bind]; auto.
  destruct (u64_add chk (d_minutes d) a1); cbn [bind]; auto.
  destruct (u64_mul chk 60 a2); cbn [bind]; auto.
Qed.

Lemma to_std_sign chk d : to_std_duration chk (set_neg d) = to_std_duration chk d.
Proof. reflexivity. Qed.
Lemma to_std_integral' chk d n : d_years d = 0 -> d_months d = 0 -> n < 2 ^ 53 ->
  d_seconds d = b64_of_N n ->
  let total := n + 60 * (d_minutes d + 60 * (d_hours d + 24 * d_days d)) in
  to_std_duration chk d =
    if total <? 2 ^ 64 then Ok (total, 0) else if chk then Panic else Ok (total mod 2 ^ 64, 0).
Proof.
  intros Hy Hm Hn Hs total. rewrite (to_std_integral chk d n) by auto. fold total.
  rewrite two64_eq. unfold u64_wrap. destruct (total <? two64); auto. destruct chk; auto.
Qed.
