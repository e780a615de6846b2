(** Proofs about decimals. *)
From Coq Require Import NArith ZArith QArith Qpower Bool Ascii String List Lia.
From Coq Require Import ZifyBool ZifyNat ZifyN.
From Verif Require Import Str StrFacts SpecLex Tz TzProofs Ints IntsProofs BigDec SpecBigDec SpecSerde.
Import ListNotations.
Local Open Scope N_scope.

Arguments chr : simpl never.
Arguments lit : simpl never.

Lemma break_some p s a b : break_at p s = Some (a, b) <-> exists c, s = a ++ c :: b /\ p c = true /\ forall x, In x a -> p x = false.
Proof.
  revert a. induction s as [|c s IH]; intros a; cbn [break_at].
  - split; [discriminate|]. intros (c & E & _). destruct a; discriminate.
  - destruct (p c) eqn:P.
    + split; [intros [= <- <-]; exists c; repeat split; auto; intros ? []|]. intros (d & E & Pd & F). destruct a as [|x a].
      * injection E as <- <-. auto.
      * injection E as <- ->. rewrite (F c) in P by (left; auto). discriminate.
    + destruct (break_at p s) as [[a' b']|] eqn:B.
      * split.
        -- intros [= <- <-]. destruct (proj1 (IH a') eq_refl) as (d & -> & Pd & F). exists d. repeat split; auto. intros x [<-|I]; auto.
        -- intros (d & E & Pd & F). destruct a as [|x a]; [injection E as <- <-; congruence|]. injection E as <- ->.
           assert (X : Some (a', b') = Some (a, b)) by (apply IH; exists d; repeat split; auto; intros; apply F; right; auto). injection X as <- <-. auto.
      * split; [discriminate|]. intros (d & E & Pd & F). destruct a as [|x a]; [injection E as <- <-; congruence|]. injection E as <- ->.
        assert (X : None = Some (a, b)) by (apply IH; exists d; repeat split; auto; intros; apply F; right; auto). discriminate.
Qed.
Lemma break_none p s : break_at p s = None <-> forall x, In x s -> p x = false.
Proof.
  induction s as [|c s IH]; cbn [break_at]; [split; auto; intros _ ? []|]. destruct (p c) eqn:P.
  - split; [discriminate|]. intros H. rewrite (H c) in P by (left; auto). discriminate.
  - destruct (break_at p s) as [[a b]|].
    + split; [discriminate|]. intros H. assert (X : Some (a, b) = None) by (apply IH; intros; apply H; right; auto). discriminate.
    + split; auto. intros _ x [<-|I]; auto. apply (proj1 IH); auto.
Qed.

(** ** Characters *)
Definition number_char (c : N) : bool := is_ascii_digit c || (c =? 95) || (c =? 43) || (c =? 45).
Lemma numu_chars s n : numu s n -> forall c, In c s -> is_ascii_digit c = true \/ c = 95.
Proof.
  induction 1; intros c I.
  - destruct I as [<-|[]]. left. unfold is_ascii_digit. lia.
  - apply in_app_or in I as [I|[<-|[]]]; auto. left. unfold is_ascii_digit. lia.
  - apply in_app_or in I as [I|[<-|[]]]; auto.
Qed.
Lemma signed_chars s i : signed_lex s i -> forall c, In c s -> number_char c = true.
Proof.
  assert (A : forall s n, numu s n -> forall c, In c s -> number_char c = true).
  { intros s' n H c I. unfold number_char. destruct (numu_chars _ _ H c I) as [-> | ->]; reflexivity. }
  intros H c I. inversion H as [s' n U|s' n U]; subst.
  - inversion U; subst; eauto. destruct I as [<-|I]; [reflexivity|]. eapply A; eauto.
  - destruct I as [<-|I]; [reflexivity|]. eapply A; eauto.
Qed.
Lemma signed_nonempty s i : signed_lex s i -> s <> [].
Proof.
  intros H. inversion H as [s' n U|s' n U]; subst; [|discriminate]. inversion U as [s' n' V|]; subst; [|discriminate].
  destruct (numu_head _ _ V) as (c & t & -> & _). discriminate.
Qed.
Definition is_e (c : N) : bool := (c =? chr "e") || (c =? chr "E").
Lemma number_not_e c : number_char c = true -> is_e c = false /\ (chr "." =? c) = false.
Proof. unfold number_char, is_e, is_ascii_digit. change (chr "e") with 101. change (chr "E") with 69. change (chr ".") with 46. lia. Qed.
Lemma mantissa_no_e s i k : mantissa_text s i k -> forall c, In c s -> is_e c = false.
Proof.
  intros H c I. inversion H as [s' i' S|a b i' S]; subst.
  - apply (proj1 (number_not_e c (signed_chars _ _ S c I))).
  - apply in_app_or in I as [I|[<-|I]]; [|reflexivity|]; apply (proj1 (number_not_e c (signed_chars _ _ S c ltac:(apply in_or_app; auto)))).
Qed.

(** ** Exponents *)
Lemma xsd_integer_head s z : xsd_integer s z ->
  match strip_prefix 45 s with
  | Some t => num t (Z.abs_N z) /\ (z <= 0)%Z
  | None => match strip_prefix 43 s with
            | Some t => num t (Z.abs_N z) /\ (0 <= z)%Z
            | None => num s (Z.abs_N z) /\ (0 <= z)%Z
            end
  end.
Proof.
  intros H. inversion H as [s' n A|s' n A|s' n A]; subst.
  - rewrite !(numu_strip _ _ _ (num_numu _ _ A)) by reflexivity. replace (Z.abs_N (Z.of_N n)) with n by lia. split; auto. lia.
  - change (strip_prefix 45 (lit "+" ++ s')) with (@None str). change (strip_prefix 43 (lit "+" ++ s')) with (Some s').
    replace (Z.abs_N (Z.of_N n)) with n by lia. split; auto. lia.
  - change (strip_prefix 45 (lit "-" ++ s')) with (Some s'). replace (Z.abs_N (- Z.of_N n)) with n by lia. split; auto. lia.
Qed.
Lemma i128_ok s z : parse_i128 s = Ok z <-> xsd_integer s z /\ (- 2 ^ 127 <= z < 2 ^ 127)%Z.
Proof.
  assert (D : forall (neg : bool) ds, match ds with [] => Err | _ => if forallb is_ascii_digit ds then
       let v := Z.of_N (digits_val ds) in let z := if neg then Z.opp v else v in
       if (i128_min <=? z)%Z && (z <=? i128_max)%Z then Ok z else Err else Err end = Ok z <->
     exists n, num ds n /\ z = (if neg then - Z.of_N n else Z.of_N n)%Z /\ (- 2 ^ 127 <= z < 2 ^ 127)%Z).
  { intros neg ds. assert (X : forall n, num ds n <-> ds <> [] /\ forallb is_ascii_digit ds = true /\ digits_val ds = n) by (intros; apply num_iff).
    destruct ds as [|c ds]; [split; [discriminate|]; intros (n & N & _); apply X in N as [N _]; congruence|].
    destruct (forallb is_ascii_digit (c :: ds)) eqn:F.
    - cbv zeta. unfold i128_min, i128_max. set (v := digits_val (c :: ds)) in *. split.
      + destruct (_ && _) eqn:R; [|discriminate]. intros [= <-]. exists v. split; [apply X; repeat split; auto; discriminate|]. split; auto.
        rewrite andb_true_iff in R. lia.
      + intros (n & N & -> & R). apply X in N as (_ & _ & <-). destruct neg.
        * destruct ((- 2 ^ 127 <=? - Z.of_N v)%Z && (- Z.of_N v <=? 2 ^ 127 - 1)%Z) eqn:E; auto. rewrite andb_false_iff in E. lia.
        * destruct ((- 2 ^ 127 <=? Z.of_N v)%Z && (Z.of_N v <=? 2 ^ 127 - 1)%Z) eqn:E; auto. rewrite andb_false_iff in E. lia.
    - split; [discriminate|]. intros (n & N & _). apply X in N as (_ & N & _). congruence. }
  unfold parse_i128. split.
  - destruct (strip_prefix 45 s) as [t|] eqn:E.
    + intros H. apply (proj1 (D true t)) in H as (n & N & -> & R). split; auto. apply strip_prefix_spec in E as ->. apply (xsd_int_minus t n N).
    + destruct (strip_prefix 43 s) as [t|] eqn:E2; intros H; [apply (proj1 (D false t)) in H as (n & N & -> & R)|apply (proj1 (D false s)) in H as (n & N & -> & R)]; split; auto.
      * apply strip_prefix_spec in E2 as ->. apply (xsd_int_plus t n N).
      * apply xsd_int_plain; auto.
  - intros [H R]. apply xsd_integer_head in H. destruct (strip_prefix 45 s) as [t|].
    + apply (proj2 (D true t)). exists (Z.abs_N z). destruct H. repeat split; auto; lia.
    + destruct (strip_prefix 43 s) as [t|]; [apply (proj2 (D false t))|apply (proj2 (D false s))]; exists (Z.abs_N z); destruct H; repeat split; auto; lia.
Qed.

(** ** Reading *)
Definition read_mantissa (base : str) : str * nat :=
  match break_at (N.eqb (chr ".")) base with
  | None => (base, 0%nat)
  | Some (lead, trail) => (lead ++ trail, List.length (filter (fun c => negb (c =? chr "_")) trail))
  end.
Lemma read_mantissa_ok s i k : (let '(ds, o) := read_mantissa s in bigint_from_str ds = Ok i /\ k = Z.of_nat o) <-> mantissa_text s i k.
Proof.
  unfold read_mantissa. destruct (break_at (N.eqb (chr ".")) s) as [[a b]|] eqn:B.
  - pose proof B as B0. apply break_some in B as (c & -> & P & F). apply N.eqb_eq in P. subst c. rewrite bigint_ok. split.
    + intros [S ->]. apply (mantissa_point a b i S).
    + intros H. inversion H as [s' i' S E|a' b' i' S E].
      * subst. assert (X := signed_chars _ _ S (chr ".") (in_elt _ _ _)). discriminate.
      * assert (Z : Some (a', b') = Some (a, b)).
        { rewrite <- B0, <- E. symmetry. apply break_some. exists (chr "."). split; [reflexivity|]. split; [reflexivity|].
          intros x I. apply (proj2 (number_not_e x (signed_chars _ _ S x (in_or_app _ _ _ (or_introl I))))). }
        injection Z as -> ->. split; auto.
  - rewrite bigint_ok. split.
    + intros [S ->]. apply mantissa_whole; auto.
    + intros H. inversion H as [s' i' S E|a' b' i' S E]; subst; auto. rewrite break_none in B.
      specialize (B (chr ".") (in_elt _ _ _)). discriminate.
Qed.
Lemma mantissa_nonempty s i k : mantissa_text s i k -> s <> [].
Proof. intros H. inversion H as [s' i' S|a b i' S]; subst; [eapply signed_nonempty; eauto|destruct a; discriminate]. Qed.
Definition in_i64 (k : Z) : Prop := (- 2 ^ 63 <= k < 2 ^ 63)%Z.
Lemma finish_ok base x i k :
  (if is_empty base then Err else let '(digits, offset) := read_mantissa base in
     let k := (Z.of_nat offset - x)%Z in
     if (i64_min <=? k)%Z && (k <=? i64_max)%Z then bind (bigint_from_str digits) (fun i => Ok {| mantissa := i; scale := k |}) else Err) =
    Ok {| mantissa := i; scale := k |} <->
  mantissa_text base i (k + x) /\ in_i64 k.
Proof.
  unfold in_i64, i64_min, i64_max. pose proof (fun k => read_mantissa_ok base i k) as M. split.
  - destruct (is_empty base); [discriminate|]. destruct (read_mantissa base) as [ds o]. cbv zeta. destruct (_ && _) eqn:R; [|discriminate].
    destruct (bigint_from_str ds) as [j| |] eqn:B; try discriminate. cbn [bind]. intros [= -> <-]. split; [apply M; split; [reflexivity|lia]|].
    rewrite andb_true_iff in R. lia.
  - intros [H R]. pose proof (mantissa_nonempty _ _ _ H) as NE. apply M in H. destruct base as [|c base]; [congruence|]. cbn [is_empty].
    destruct (read_mantissa (c :: base)) as [ds o]. destruct H as [B E]. cbv zeta. replace (Z.of_nat o - x)%Z with k by lia.
    replace ((- 2 ^ 63 <=? k)%Z && (k <=? 2 ^ 63 - 1)%Z) with true by lia. rewrite B. reflexivity.
Qed.
Lemma decimal_ok s i k : decimal_from_str s = Ok {| mantissa := i; scale := k |} <-> lenient_decimal s i k /\ in_i64 k.
Proof.
  unfold decimal_from_str. fold is_e. destruct (break_at is_e s) as [[b e]|] eqn:B.
  - pose proof B as B0. apply break_some in B as (c & -> & P & F).
    assert (C : In [c] [lit "e"; lit "E"]).
    { unfold is_e in P. apply orb_true_iff in P as [P|P]; apply N.eqb_eq in P; subst c; [left|right; left]; reflexivity. }
    assert (D : forall x, bind (Ok (b, x)) (fun '(base, exponent) => if is_empty base then Err else
       let '(digits, offset) := match break_at (N.eqb (chr ".")) base with None => (base, 0%nat)
         | Some (lead, trail) => (lead ++ trail, List.length (filter (fun c => negb (c =? chr "_")) trail)) end in
       let k := (Z.of_nat offset - exponent)%Z in
       if (i64_min <=? k)%Z && (k <=? i64_max)%Z then bind (bigint_from_str digits) (fun i => Ok {| mantissa := i; scale := k |}) else Err) =
       Ok {| mantissa := i; scale := k |} <-> mantissa_text b i (k + x) /\ in_i64 k) by (intros x; apply finish_ok).
    split.
    + destruct (parse_i128 e) as [x| |] eqn:X; try discriminate. intros H. change (bind (Ok x) _) with (Ok (b, x)) in H. apply D in H as [H R]. split; auto.
      apply i128_ok in X as [X1 X2]. replace k with (k + x - x)%Z by lia. apply (lenient_exponent b i (k + x) [c] e x H C X1 X2).
    + intros [H R]. inversion H as [s' i' k' M E|s' i' k' e' x z M I X Z E].
      * subst. assert (Y := mantissa_no_e _ _ _ M c (in_elt _ _ _)). congruence.
      * assert (Y : Some (s', x) = Some (b, e)).
        { rewrite <- B0, <- E. symmetry. apply break_some. assert (exists c', e' = [c'] /\ is_e c' = true) as (c' & -> & Pc).
          { destruct I as [<-|[<-|[]]]; eexists; split; reflexivity. }
          exists c'. repeat split; auto. intros y Iy. eapply mantissa_no_e; eauto. }
        injection Y as -> ->. rewrite (proj2 (i128_ok e z) (conj X Z)). change (bind (Ok z) _) with (Ok (b, z)) at 1. subst k. apply (proj2 (D z)). split; auto.
        replace (k' - z + z)%Z with k' by lia. auto.
  - pose proof (finish_ok s 0 i k) as D. rewrite Z.add_0_r in D. split.
    + intros H. apply (proj1 D) in H as [H R]. split; auto. apply lenient_plain; auto.
    + intros [H R]. apply (proj2 D). split; auto. inversion H as [s' i' k' M E|s' i' k' e' x z M I X Z E]; subst; auto.
      rewrite break_none in B. destruct I as [<-|[<-|[]]].
      * specialize (B (chr "e") (in_elt _ _ _)). discriminate.
      * specialize (B (chr "E") (in_elt _ _ _)). discriminate.
Qed.
Lemma decimal_no_panic s : decimal_from_str s <> Panic.
Proof.
  unfold decimal_from_str. assert (P : forall e, parse_i128 e <> Panic).
  { intros e. unfold parse_i128. destruct (match strip_prefix 45 e with Some t => (true, t) | None => match strip_prefix 43 e with Some t => (false, t) | None => (false, e) end end) as [g ds].
    destruct ds; [discriminate|]. destruct (forallb is_ascii_digit (n :: ds)); [|discriminate]. cbv zeta.
    match goal with |- (if ?b then _ else _) <> _ => destruct b; discriminate end. }
  assert (F : forall base x, (if is_empty base then Err else let '(digits, offset) := read_mantissa base in
     let k := (Z.of_nat offset - x)%Z in
     if (i64_min <=? k)%Z && (k <=? i64_max)%Z then bind (bigint_from_str digits) (fun i => Ok {| mantissa := i; scale := k |}) else Err) <> Panic).
  { intros base x. destruct (is_empty base); [discriminate|]. destruct (read_mantissa base) as [ds o]. cbv zeta. destruct (_ && _); [|discriminate].
    pose proof (bigint_no_panic ds). destruct (bigint_from_str ds); try discriminate. congruence. }
  destruct (break_at _ s) as [[b e]|].
  - pose proof (P e). destruct (parse_i128 e); try discriminate; [|congruence]. cbn [bind]. apply F.
  - cbn [bind]. apply F.
Qed.

(** ** Writing *)
Definition sign_of (i : Z) : str := if (i <? 0)%Z then lit "-" else [].
Lemma signed_digits i ds : num ds (Z.abs_N i) -> signed_lex (sign_of i ++ ds) i.
Proof.
  intros H. apply num_numu in H. unfold sign_of. destruct (i <? 0)%Z eqn:S.
  - replace i with (- Z.of_N (Z.abs_N i))%Z at 1 by lia. apply (signed_neg ds _ H).
  - replace i with (Z.of_N (Z.abs_N i)) at 1 by lia. apply signed_pos, unsigned_plain, H.
Qed.
Definition plain_scale (t : N) (i k : Z) : Prop := (0 <= k <= Z.of_nat (List.length (dec (Z.abs_N i))) + Z.of_N t)%Z.
Lemma display_plain t i k : plain_scale t i k ->
  decimal_display t {| mantissa := i; scale := k |} = sign_of i ++ format_full_scale (dec (Z.abs_N i)) (Z.to_nat k).
Proof.
  unfold plain_scale, decimal_display, sign_of. cbn [mantissa scale]. intros H.
  replace ((k <? 0)%Z || (Z.of_nat (List.length (dec (Z.abs_N i))) + Z.of_N t <? k)%Z) with false by lia. destruct (i <? 0)%Z; reflexivity.
Qed.
Lemma display_exponential t i k : ~ plain_scale t i k ->
  decimal_display t {| mantissa := i; scale := k |} = sign_of i ++ format_exponential (dec (Z.abs_N i)) k.
Proof.
  unfold plain_scale, decimal_display, sign_of. cbn [mantissa scale]. intros H.
  replace ((k <? 0)%Z || (Z.of_nat (List.length (dec (Z.abs_N i))) + Z.of_N t <? k)%Z) with true by lia. destruct (i <? 0)%Z; reflexivity.
Qed.
Lemma plain_dec t i k : plain_scale t i k \/ ~ plain_scale t i k.
Proof. unfold plain_scale. lia. Qed.

Lemma digits_underscores s : forallb is_ascii_digit s = true -> not_underscores s = Z.of_nat (List.length s).
Proof.
  unfold not_underscores. intros H. f_equal. induction s as [|c s IH]; [reflexivity|]. cbn [forallb] in H. apply andb_true_iff in H as [H1 H2]. cbn [filter].
  unfold is_ascii_digit in H1. replace (negb (c =? 95)) with true by lia. cbn [List.length]. rewrite IH; auto.
Qed.
(** The full form in three cases. *)
Lemma full_cases ds k : ds <> [] -> forallb is_ascii_digit ds = true ->
  (k = 0%nat /\ format_full_scale ds k = ds) \/
  (exists a b, ds = a ++ b /\ a <> [] /\ b <> [] /\ List.length b = k /\ format_full_scale ds k = a ++ lit "." ++ b) \/
  (exists z, (List.length ds + z)%nat = k /\ format_full_scale ds k = lit "0" ++ lit "." ++ zeros z ++ ds).
Proof.
  intros N D. unfold format_full_scale. destruct (k =? 0)%nat eqn:K; [left; split; [lia|reflexivity]|]. destruct (k <? List.length ds)%nat eqn:L.
  - right. left. exists (firstn (List.length ds - k) ds), (skipn (List.length ds - k) ds).
    assert (A : List.length (firstn (List.length ds - k) ds) = (List.length ds - k)%nat) by (rewrite firstn_length; lia).
    assert (B : List.length (skipn (List.length ds - k) ds) = k) by (rewrite skipn_length; lia).
    split; [symmetry; apply firstn_skipn|]. split; [intros E; rewrite E in A; cbn in A; lia|]. split; [intros E; rewrite E in B; cbn in B; lia|]. split; auto.
  - right. right. exists (k - List.length ds)%nat. split; [lia|reflexivity].
Qed.
Lemma num_app a b n m : num a n -> num b m -> num (a ++ b) (n * 10 ^ N.of_nat (List.length b) + m).
Proof.
  rewrite !num_iff. intros (A1 & A2 & <-) (B1 & B2 & <-). split; [destruct a; [congruence|discriminate]|]. rewrite forallb_app, A2, B2. split; auto. apply digits_val_app.
Qed.
Lemma num_self ds : ds <> [] -> forallb is_ascii_digit ds = true -> num ds (digits_val ds).
Proof. rewrite num_iff. auto. Qed.
Lemma mantissa_full i k : mantissa_text (sign_of i ++ format_full_scale (dec (Z.abs_N i)) k) i (Z.of_nat k).
Proof.
  pose proof (dec_nonempty (Z.abs_N i)) as NE. pose proof (dec_digits (Z.abs_N i)) as D. pose proof (num_dec (Z.abs_N i)) as M.
  destruct (full_cases _ k NE D) as [[-> ->]|[(a & b & E & _ & _ & L & ->)|(z & L & ->)]].
  - apply mantissa_whole, signed_digits, M.
  - rewrite E in D. rewrite forallb_app, andb_true_iff in D. destruct D as [_ Db]. rewrite app_assoc. rewrite <- L, <- digits_underscores by auto.
    apply mantissa_point. rewrite <- app_assoc, <- E. apply signed_digits, M.
  - rewrite app_assoc. replace (Z.of_nat k) with (not_underscores (zeros z ++ dec (Z.abs_N i)))
      by (rewrite digits_underscores, app_length, zeros_length by (rewrite forallb_app, zeros_digits, D; reflexivity); lia).
    apply mantissa_point. rewrite <- app_assoc. apply signed_digits. apply num_iff. split; [discriminate|].
    change (lit "0" ++ zeros z ++ dec (Z.abs_N i)) with (zeros (S z) ++ dec (Z.abs_N i)). rewrite forallb_app, zeros_digits, D, digits_val_zeros, dec_val. auto.
Qed.
Lemma exponent_nonzero t i k : ~ plain_scale t i k -> (Z.of_nat (List.length (dec (Z.abs_N i))) - k - 1 <> 0)%Z.
Proof. unfold plain_scale. pose proof (dec_nonempty (Z.abs_N i)). destruct (dec (Z.abs_N i)); [congruence|]. cbn [List.length]. lia. Qed.
Definition exponent_text (x : Z) : str := (if (x <? 0)%Z then lit "-" else lit "+") ++ dec (Z.abs_N x).
Lemma exponent_integer x : xsd_integer (exponent_text x) x.
Proof.
  unfold exponent_text. pose proof (num_dec (Z.abs_N x)) as M. destruct (x <? 0)%Z eqn:S.
  - replace x with (- Z.of_N (Z.abs_N x))%Z at 2 by lia. apply (xsd_int_minus _ _ M).
  - replace x with (Z.of_N (Z.abs_N x)) at 2 by lia. apply (xsd_int_plus _ _ M).
Qed.
Lemma exponential_form ds k : ds <> [] -> forallb is_ascii_digit ds = true -> (Z.of_nat (List.length ds) - k - 1 <> 0)%Z ->
  exists m, (forall sg i, signed_lex (sg ++ ds) i -> mantissa_text (sg ++ m) i (Z.of_nat (List.length ds) - 1)) /\
    format_exponential ds k = m ++ lit "E" ++ exponent_text (Z.of_nat (List.length ds) - k - 1).
Proof.
  intros NE D X. unfold format_exponential. cbv zeta. replace (Z.of_nat (List.length ds) - k - 1 =? 0)%Z with false by lia.
  destruct ds as [|a [|b ds]]; [congruence| |].
  - exists [a]. split; [|unfold exponent_text; destruct (_ <? 0)%Z; reflexivity]. intros sg i S. apply mantissa_whole, S.
  - exists ([a] ++ lit "." ++ b :: ds). split; [|unfold exponent_text; destruct (_ <? 0)%Z; reflexivity]. intros sg i S. rewrite app_assoc.
    replace (Z.of_nat (List.length (a :: b :: ds)) - 1)%Z with (not_underscores (b :: ds)).
    + apply mantissa_point. rewrite <- app_assoc. exact S.
    + rewrite digits_underscores by (cbn [forallb] in *; rewrite !andb_true_iff in *; tauto). cbn [List.length]. lia.
Qed.
Lemma decimal_round t i k : in_i64 k -> (Z.of_nat (List.length (dec (Z.abs_N i))) < 2 ^ 64)%Z ->
  decimal_from_str (decimal_display t {| mantissa := i; scale := k |}) = Ok {| mantissa := i; scale := k |}.
Proof.
  intros R B. apply decimal_ok. split; auto. destruct (plain_dec t i k) as [P|P].
  - rewrite display_plain by auto. apply lenient_plain. unfold plain_scale in P. rewrite <- (Z2Nat.id k) at 2 by lia. apply mantissa_full.
  - rewrite display_exponential by auto. pose proof (exponent_nonzero _ _ _ P) as X. pose proof (dec_nonempty (Z.abs_N i)) as NE.
    destruct (exponential_form _ k NE (dec_digits _) X) as (m & M & ->). specialize (M _ _ (signed_digits i _ (num_dec (Z.abs_N i)))).
    set (L := Z.of_nat (List.length (dec (Z.abs_N i)))) in *. rewrite app_assoc. replace k with (L - 1 - (L - k - 1))%Z at 2 by lia.
    apply lenient_exponent; auto; [right; left; reflexivity|apply exponent_integer|]. unfold in_i64 in R. lia.
Qed.

(** ** Values *)
Lemma ten_power (k : nat) : (Qpower (10 # 1) (- Z.of_nat k) == / inject_Z (10 ^ Z.of_nat k))%Q.
Proof. rewrite Qpower_opp. rewrite Zpower_Qpower by lia. reflexivity. Qed.
Lemma ten_nonzero (k : nat) : ~ (inject_Z (10 ^ Z.of_nat k) == 0)%Q.
Proof. change 0%Q with (inject_Z 0). rewrite inject_Z_injective. pose proof (Z.pow_pos_nonneg 10 (Z.of_nat k)). lia. Qed.
Lemma value_whole i : (decimal_value i 0 == inject_Z i)%Q.
Proof. unfold decimal_value. change (Qpower (10 # 1) (- 0)) with 1%Q. apply Qmult_1_r. Qed.
Lemma value_fraction b m : (decimal_value (Z.of_N m) (Z.of_nat (List.length b)) == fraction b m)%Q.
Proof. unfold decimal_value, fraction. rewrite ten_power. reflexivity. Qed.
Lemma value_both n b m : (decimal_value (Z.of_N (n * 10 ^ N.of_nat (List.length b) + m)) (Z.of_nat (List.length b)) == inject_Z (Z.of_N n) + fraction b m)%Q.
Proof.
  unfold decimal_value, fraction. rewrite ten_power. pose proof (ten_nonzero (List.length b)) as NZ.
  replace (Z.of_N (n * 10 ^ N.of_nat (List.length b) + m)) with (Z.of_N n * 10 ^ Z.of_nat (List.length b) + Z.of_N m)%Z.
  - rewrite inject_Z_plus, inject_Z_mult. field. exact NZ.
  - rewrite N2Z.inj_add, N2Z.inj_mul, N2Z.inj_pow, nat_N_Z. reflexivity.
Qed.
Lemma unsigned_read s q : unsigned_decimal s q -> exists n k, (decimal_value (Z.of_N n) (Z.of_nat k) == q)%Q /\ (k <= List.length s)%nat /\
  forall sg i, (forall ds, num ds n -> signed_lex (sg ++ ds) i) -> mantissa_text (sg ++ s) i (Z.of_nat k).
Proof.
  intros H. inversion H as [s' n A|s' n A|a n b m A B|b m B]; subst.
  - exists n, 0%nat. split; [apply value_whole|]. split; [lia|]. intros sg i S. apply mantissa_whole; auto.
  - exists n, 0%nat. split; [apply value_whole|]. split; [lia|]. intros sg i S. rewrite app_assoc. apply (mantissa_point (sg ++ s') [] i). rewrite app_nil_r. auto.
  - exists (n * 10 ^ N.of_nat (List.length b) + m), (List.length b). split; [apply value_both|]. split; [rewrite !app_length; lia|].
    intros sg i S. rewrite <- digits_underscores by (eapply num_digits; eauto). rewrite app_assoc. apply mantissa_point. rewrite <- app_assoc. apply S, num_app; auto.
  - exists m, (List.length b). split; [apply value_fraction|]. split; [rewrite app_length; lia|].
    intros sg i S. rewrite <- digits_underscores by (eapply num_digits; eauto). apply mantissa_point. apply S; auto.
Qed.
Lemma value_opp i k : (decimal_value (- i) k == - decimal_value i k)%Q.
Proof. unfold decimal_value. rewrite inject_Z_opp. ring. Qed.
Lemma decimal_literals s q : xsd_decimal s q -> (Z.of_nat (List.length s) < 2 ^ 63)%Z ->
  exists d, decimal_from_str s = Ok d /\ (decimal_value (mantissa d) (scale d) == q)%Q.
Proof.
  intros H B. assert (X : exists i k, mantissa_text s i (Z.of_nat k) /\ (k <= List.length s)%nat /\ (decimal_value i (Z.of_nat k) == q)%Q).
  { inversion H as [s' q' U|s' q' U|s' q' U]; subst; destruct (unsigned_read _ _ U) as (n & k & V & L & M).
    - exists (Z.of_N n), k. split; [apply (M [])|auto]. intros ds D. apply signed_pos, unsigned_plain, num_numu, D.
    - exists (Z.of_N n), k. split; [apply (M (lit "+"))|split; auto; rewrite app_length; lia]. intros ds D. apply signed_pos, unsigned_plus, num_numu, D.
    - exists (- Z.of_N n)%Z, k. split; [apply (M (lit "-"))|split; [rewrite app_length; lia|rewrite value_opp, V; reflexivity]]. intros ds D. apply signed_neg, num_numu, D. }
  destruct X as (i & k & M & L & V). exists {| mantissa := i; scale := Z.of_nat k |}. split; [|exact V]. apply decimal_ok. split; [apply lenient_plain, M|]. unfold in_i64. lia.
Qed.
Definition decimal_char (c : N) : bool := is_ascii_digit c || (c =? 43) || (c =? 45) || (c =? 46).
Lemma xsd_decimal_chars s q : xsd_decimal s q -> forall c, In c s -> decimal_char c = true.
Proof.
  assert (A : forall s n, num s n -> forall c, In c s -> decimal_char c = true).
  { intros s' n H c I. apply num_digits in H. rewrite forallb_forall in H. unfold decimal_char. rewrite H; auto. }
  assert (U : forall s q, unsigned_decimal s q -> forall c, In c s -> decimal_char c = true).
  { intros s' q' H c I. inversion H; subst; eauto.
    - apply in_app_or in I as [I|[<-|[]]]; eauto.
    - apply in_app_or in I as [I|[<-|I]]; eauto.
    - destruct I as [<-|I]; eauto. }
  intros H c I. inversion H; subst; eauto; destruct I as [<-|I]; eauto.
Qed.
Lemma display_lexical t i k : (plain_scale t i k <-> exists q, xsd_decimal (decimal_display t {| mantissa := i; scale := k |}) q) /\
  (plain_scale t i k -> exists q, xsd_decimal (decimal_display t {| mantissa := i; scale := k |}) q /\ (q == decimal_value i k)%Q).
Proof.
  assert (P : plain_scale t i k -> exists q, xsd_decimal (decimal_display t {| mantissa := i; scale := k |}) q /\ (q == decimal_value i k)%Q).
  { intros P. rewrite display_plain by auto. set (ds := dec (Z.abs_N i)). pose proof (dec_nonempty (Z.abs_N i)) as NE. pose proof (dec_digits (Z.abs_N i)) as D.
    assert (K : k = Z.of_nat (Z.to_nat k)) by (unfold plain_scale in P; lia).
    assert (U : exists q, unsigned_decimal (format_full_scale ds (Z.to_nat k)) q /\ (q == decimal_value (Z.abs i) k)%Q).
    { assert (I : Z.abs i = Z.of_N (Z.abs_N i)) by lia.
      destruct (full_cases ds (Z.to_nat k) NE D) as [[E ->]|[(a & b & E & Na & Nb & L & ->)|(z & L & ->)]].
      - eexists. split; [apply decimal_whole, num_dec|]. rewrite K, E, value_whole, I. reflexivity.
      - fold ds in D. rewrite E, forallb_app, andb_true_iff in D. destruct D as [Da Db].
        eexists. split; [apply decimal_both; apply num_self; eauto|]. rewrite K, <- L, I. rewrite <- value_both.
        replace (digits_val a * 10 ^ N.of_nat (List.length b) + digits_val b) with (Z.abs_N i); [reflexivity|].
        rewrite <- digits_val_app, <- E. symmetry. apply dec_val.
      - assert (N2 : num (zeros z ++ ds) (Z.abs_N i)).
        { apply num_iff. split; [destruct (zeros z); auto; discriminate|]. subst ds. rewrite forallb_app, zeros_digits, D, digits_val_zeros, dec_val. auto. }
        eexists. split; [apply decimal_both; [apply (num_one 0); lia|exact N2]|]. rewrite <- value_both, K, <- L, I, app_length, zeros_length.
        replace (0 * 10 ^ N.of_nat (z + List.length ds) + Z.abs_N i) with (Z.abs_N i) by lia. rewrite (Nat.add_comm z). reflexivity. }
    destruct U as (q & U & V). unfold sign_of. destruct (i <? 0)%Z eqn:S.
    - exists (- q)%Q. split; [apply decimal_minus, U|]. rewrite V. rewrite <- value_opp. replace (- Z.abs i)%Z with i by lia. reflexivity.
    - exists q. split; [apply decimal_plain, U|]. rewrite V. replace (Z.abs i) with i by lia. reflexivity. }
  split; auto. split; [intros H; destruct (P H) as (q & X & _); eauto|]. intros (q & X). destruct (plain_dec t i k) as [H|H]; auto. exfalso.
  rewrite display_exponential in X by auto. destruct (exponential_form _ k (dec_nonempty _) (dec_digits _) (exponent_nonzero _ _ _ H)) as (m & _ & E).
  rewrite E in X. assert (Y := xsd_decimal_chars _ _ X (chr "E")). discriminate Y. apply in_or_app. right. apply in_or_app. right. left. reflexivity.
Qed.
(** No blank is ever written. *)
Definition written_char (c : N) : bool := decimal_char c || (c =? 69).
Lemma display_chars t d c : In c (decimal_display t d) -> written_char c = true.
Proof.
  destruct d as [i k]. unfold written_char. assert (S : forall c, In c (sign_of i) -> decimal_char c = true) by (intros x; unfold sign_of; destruct (i <? 0)%Z; [intros [<-|[]]; reflexivity|intros []]).
  assert (Dg : forall n c, In c (dec n) -> decimal_char c = true).
  { intros n x I. pose proof (dec_digits n) as D. rewrite forallb_forall in D. unfold decimal_char. rewrite (D x I). reflexivity. }
  destruct (plain_dec t i k) as [P|P].
  - intros I. destruct (proj2 (display_lexical t i k) P) as (q & X & _). rewrite (xsd_decimal_chars _ _ X c I). reflexivity.
  - rewrite display_exponential by auto. intros I. apply in_app_or in I as [I|I]; [rewrite S; auto|]. unfold format_exponential in I. cbv zeta in I.
    apply in_app_or in I as [I|I].
    + assert (Y : In c (dec (Z.abs_N i)) \/ c = chr ".").
      { destruct (dec (Z.abs_N i)) as [|a [|b l]]; auto. destruct I as [<-|[<-|I]]; [left; left; auto|right; auto|left; right; auto]. }
      destruct Y as [Y| ->]; [rewrite (Dg _ _ Y); auto|reflexivity].
    + destruct (_ =? 0)%Z; [destruct I|]. destruct I as [<-|[<-|I]]; [apply orb_true_r|destruct (_ <? 0)%Z; reflexivity|rewrite (Dg _ _ I); auto].
Qed.
Lemma display_untrimmed t d : untrimmed (decimal_display t d).
Proof.
  assert (W : forall c, In c (decimal_display t d) -> ~ xml_blank c).
  { intros c I B. apply display_chars in I. unfold xml_blank in B. destruct B as [<-|[<-|[<-|[<-|[]]]]]; discriminate. }
  split; intros c r E; apply W; rewrite E; [left; auto|apply in_or_app; right; left; auto].
Qed.
