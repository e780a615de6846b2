(** Proofs about the name conversions. *)
From Coq Require Import Arith NArith ZArith Bool Ascii String List Lia.
From Coq Require Import ZifyBool ZifyNat ZifyN.
From Verif Require Import Str StrFacts Xml Names SpecNames.
Import ListNotations.
Local Open Scope N_scope.

(** ** ASCII classification *)
Lemma alnum_ascii u c : c < 128 -> is_alphanumeric u c = alnumb c.
Proof.
  intros H. unfold is_alphanumeric, is_ascii, is_ascii_digit, is_ascii_alpha, is_ascii_lower, is_ascii_upper, alnumb.
  destruct (N.ltb_spec c 128); lia.
Qed.
Lemma lower_ascii u c : c < 128 -> is_lowercase u c = lowerb c.
Proof. intros H. unfold is_lowercase, is_ascii, is_ascii_lower, lowerb. destruct (N.ltb_spec c 128); lia. Qed.
Lemma upper_ascii u c : c < 128 -> is_uppercase u c = is_ascii_upper c.
Proof. intros H. unfold is_uppercase, is_ascii. destruct (N.ltb_spec c 128); [auto|lia]. Qed.
Lemma numeric_ascii u c : c < 128 -> is_numeric u c = is_ascii_digit c.
Proof. intros H. unfold is_numeric, is_ascii. destruct (N.ltb_spec c 128); [auto|lia]. Qed.
Lemma alnumb_iff c : alnumb c = true <-> alnum c.
Proof. unfold alnumb, alnum, letter, lower, upper, digit. lia. Qed.
Lemma alnumb_ascii c : alnumb c = true -> c < 128.
Proof. unfold alnumb. lia. Qed.
Lemma low_lower c : to_ascii_lowercase c = low c.
Proof. reflexivity. Qed.
Lemma alnum_low c : alnumb c = true -> alnumb (low c) = true /\ (lower (low c) \/ digit (low c)).
Proof. unfold alnumb, low, lower, digit. destruct ((65 <=? c) && (c <=? 90)) eqn:E; lia. Qed.
Lemma low_idem c : low (low c) = low c.
Proof.
  unfold low. destruct ((65 <=? c) && (c <=? 90)) eqn:E; [|rewrite E; auto].
  destruct ((65 <=? c + 32) && (c + 32 <=? 90)) eqn:E2; lia.
Qed.
Lemma low_upper c : low (to_ascii_uppercase c) = low c.
Proof.
  unfold low, to_ascii_uppercase, is_ascii_lower. destruct ((97 <=? c) && (c <=? 122)) eqn:E; auto.
  destruct ((65 <=? c - 32) && (c - 32 <=? 90)) eqn:E2; [|lia]. destruct ((65 <=? c) && (c <=? 90)) eqn:E3; lia.
Qed.
Lemma alnumb_upper c : alnumb (to_ascii_uppercase c) = alnumb c.
Proof. unfold to_ascii_uppercase, is_ascii_lower, alnumb. destruct ((97 <=? c) && (c <=? 122)) eqn:E; lia. Qed.
Lemma alnumb_low c : alnumb (low c) = alnumb c.
Proof. unfold low, alnumb. destruct ((65 <=? c) && (c <=? 90)) eqn:E; lia. Qed.
Lemma notlow_iff c : alnumb c = true -> (c =? to_ascii_uppercase c) = negb (lowerb c).
Proof.
  unfold alnumb, to_ascii_uppercase, is_ascii_lower, lowerb. intros H.
  destruct ((97 <=? c) && (c <=? 122)) eqn:E; cbn [negb]; lia.
Qed.

(** ** Splitting of names *)
Lemma last_split_app c p l : ~ In c l -> last (split_on c (p ++ c :: l)) [] = l.
Proof.
  intros H. induction p as [|x p IH]; cbn [app split_on].
  - rewrite N.eqb_refl, (split_on_none c l H). reflexivity.
  - destruct (N.eqb_spec c x) as [<-|Hx].
    + pose proof (split_on_nonempty c (p ++ c :: l)) as Hn. destruct (split_on c (p ++ c :: l)) as [|q qs]; [congruence|].
      cbn [last]. cbn [last] in IH. exact IH.
    + destruct (split_on c (p ++ c :: l)) as [|q qs] eqn:E; [exfalso; eapply split_on_nonempty; eauto|].
      destruct qs as [|q' qs]; [|exact IH].
      exfalso. apply (f_equal (@List.length str)) in E.
      assert (L : forall s, (2 <= List.length (split_on c (s ++ c :: l)))%nat).
      { clear. induction s as [|x s IH]; cbn [app split_on].
        - rewrite N.eqb_refl. cbn [List.length]. pose proof (split_on_nonempty c l). destruct (split_on c l); [congruence|cbn; lia].
        - destruct (N.eqb c x); cbn [List.length]; [lia|]. destruct (split_on c (s ++ c :: l)); cbn [List.length] in *; lia. }
      specialize (L p). rewrite E in L. cbn in L. lia.
Qed.

Lemma last_segment_local name l : local name l -> last_segment 58 name = l.
Proof.
  intros [N0 [->|(p & ->)]]; unfold last_segment.
  - rewrite split_on_none; auto.
  - apply last_split_app; auto.
Qed.

Lemma local_total name : exists l, local name l.
Proof.
  induction name as [|c name (l & N0 & H)].
  - exists []. split; [intros []|]. auto.
  - destruct H as [->|(p & ->)].
    + destruct (N.eq_dec c 58) as [->|Hc].
      * exists l. split; auto. right. exists []. auto.
      * exists (c :: l). split; [intros [E|E]; auto|]. auto.
    + exists l. split; auto. right. exists (c :: p). auto.
Qed.

Lemma split_name_at_spec s : forall pre,
  match split_name_at pre s with
  | Some (p, n) => exists q, p = rev pre ++ q /\ s = q ++ [58] ++ n /\ ~ In 58 q
  | None => ~ In 58 s
  end.
Proof.
  induction s as [|c s IH]; intros pre; cbn [split_name_at]; [intros []|].
  destruct (N.eqb_spec c 58) as [->|Hc].
  - exists []. rewrite app_nil_r. split; auto.
  - specialize (IH (c :: pre)). destruct (split_name_at (c :: pre) s) as [[p n]|].
    + destruct IH as (q & -> & -> & Hq). exists (c :: q). cbn [rev]. rewrite <- app_assoc.
      split; auto. split; auto. intros [E|E]; auto.
    + intros [E|E]; auto.
Qed.

Lemma split_name_qualified name : let '(p, l) := split_name name in qualified name p l.
Proof.
  unfold split_name. pose proof (split_name_at_spec name []) as H. destruct (split_name_at [] name) as [[p n]|].
  - destruct H as (q & -> & -> & Hq). cbn [rev app]. split; auto.
  - split; auto.
Qed.

Lemma qualified_unique name p l p' l' : qualified name p l -> qualified name p' l' -> p = p' /\ l = l'.
Proof.
  assert (K : forall a b c d, ~ In 58 a -> ~ In 58 c -> a ++ [58] ++ b = c ++ [58] ++ d -> a = c /\ b = d).
  { induction a as [|x a IH]; intros b c d Ha Hc E.
    - destruct c as [|y c]; cbn in E; [injection E as ->; auto|]. injection E as <- _. exfalso. apply Hc. left; auto.
    - destruct c as [|y c]; cbn in E.
      + injection E as -> _. exfalso. apply Ha. left; auto.
      + injection E as -> E. destruct (IH b c d) as [-> ->]; auto; intros H; [apply Ha|apply Hc]; right; auto. }
  destruct p as [p|], p' as [p'|]; cbn [qualified].
  - intros [-> H1] [E H2]. destruct (K p l p' l') as [-> ->]; auto.
  - intros [-> H1] [E H2]. exfalso. apply H2. apply in_or_app. right. left. auto.
  - intros [-> H1] [E H2]. exfalso. apply H1. rewrite E. apply in_or_app. right. left. auto.
  - intros [-> _] [-> _]. auto.
Qed.

Lemma split_name_iff name p l : split_name name = (p, l) <-> qualified name p l.
Proof.
  pose proof (split_name_qualified name) as H. destruct (split_name name) as [p' l'].
  split; [intros [= <- <-]; auto|]. intros H'. destruct (qualified_unique _ _ _ _ _ H H') as [-> ->]. auto.
Qed.

(** ** trim_right *)
Lemma drop_sep_spec u s : exists w, s = w ++ drop_sep u s /\
  (forall c, In c w -> is_alphanumeric u c = false) /\
  (drop_sep u s = [] \/ exists c t, drop_sep u s = c :: t /\ is_alphanumeric u c = true).
Proof.
  induction s as [|c s (w & E & H & D)]; cbn [drop_sep].
  - exists []. split; auto. split; [intros ? []|auto].
  - destruct (is_alphanumeric u c) eqn:Ec.
    + exists []. split; auto. split; [intros ? []|]. right. eauto.
    + exists (c :: w). split; [cbn; f_equal; auto|]. split; auto. intros x [<-|Hx]; auto.
Qed.

Lemma trim_right_spec u s : exists w, s = trim_right u s ++ w /\
  (forall c, In c w -> is_alphanumeric u c = false) /\
  (trim_right u s = [] \/ exists c t, trim_right u s = t ++ [c] /\ is_alphanumeric u c = true).
Proof.
  unfold trim_right. destruct (drop_sep_spec u (rev s)) as (w & E & H & D).
  exists (rev w). split; [|split].
  - rewrite <- rev_app_distr, <- E, rev_involutive. auto.
  - intros c Hc. apply H. apply in_rev. auto.
  - destruct D as [->|(c & t & -> & Hc)]; [left; auto|]. right. exists c, (rev t). auto.
Qed.

(** ** Snake case *)
Lemma byte_len_ascii s : ascii_text s -> byte_len s = List.length s.
Proof.
  induction s as [|c s IH]; intros H; auto. cbn [byte_len List.length]. rewrite IH by (intros x Hx; apply H; right; auto).
  unfold utf8_len. specialize (H c (or_introl eq_refl)). destruct (N.ltb_spec c 128); lia.
Qed.

Lemma nth_ascii s i d : ascii_text s -> d < 128 -> nth i s d < 128.
Proof.
  intros H Hd. destruct (Nat.lt_ge_cases i (List.length s)) as [L|L].
  - apply H. apply nth_In. auto.
  - rewrite nth_overflow; auto.
Qed.

Lemma nth_lowerb s i : lowerb (nth i s 65) = lowerb (nth i s 0).
Proof.
  destruct (Nat.lt_ge_cases i (List.length s)) as [L|L].
  - rewrite (nth_indep s 65 0 L). auto.
  - rewrite !nth_overflow; auto.
Qed.

Lemma near_lower_ascii u w i : ascii_text w ->
  near_lower u w i = lowerb (nth (i + 1) w 0) || lowerb (nth (i - 1) w 0).
Proof.
  intros H. unfold near_lower. rewrite !lower_ascii by (apply nth_ascii; auto; lia). rewrite !nth_lowerb. auto.
Qed.

Lemma nth_mid {A} (pre : list A) c s d : nth (List.length pre) (pre ++ c :: s) d = c.
Proof. rewrite app_nth2 by lia. rewrite Nat.sub_diag. auto. Qed.

Lemma firstn_mid {A} (pre s : list A) : firstn (List.length pre) (pre ++ s) = pre.
Proof. rewrite firstn_app, Nat.sub_diag, firstn_all. cbn. rewrite app_nil_r. auto. Qed.

(** what follows [pre] in the specification *)
Definition snake_rest (whole : str) (i n : nat) : str := concat (map (snake_at whole) (seq i n)).

Lemma snake_loop_spec u : forall s pre w whole, whole = pre ++ s ++ w ->
  ascii_text whole ->
  (s = [] \/ exists c t, s = t ++ [c] /\ alnumb c = true) ->
  let i := List.length pre in
  (existsb alnumb pre = false ->
     snake_loop u whole i true s = snake_rest whole i (List.length s)) /\
  (existsb alnumb pre = true -> alnumb (last pre 0) = true ->
     snake_loop u whole i false s = snake_rest whole i (List.length s)) /\
  (existsb alnumb pre = true -> alnumb (last pre 0) = false -> s <> [] ->
     95 :: snake_loop u whole i true s = snake_rest whole i (List.length s)).
Proof.
  induction s as [|c s IH]; intros pre w whole E As T.
  { cbn. split; [auto|]. split; [auto|]. intros _ _ H. congruence. }
  cbv zeta.
  assert (Ac : c < 128) by (apply As; rewrite E; apply in_or_app; right; left; auto).
  assert (Eu : (List.length pre + utf8_len c)%nat = List.length (pre ++ [c])).
  { rewrite app_length. unfold utf8_len. destruct (N.ltb_spec c 128); [cbn; lia|lia]. }
  assert (T' : s = [] \/ exists c t, s = t ++ [c] /\ alnumb c = true).
  { destruct T as [T|(x & t & T & Hx)]; [discriminate|]. destruct t as [|y t]; [left; cbn in T; congruence|].
    right. exists x, t. injection T as _ ->. auto. }
  assert (T2 : s = [] -> alnumb c = true).
  { intros ->. destruct T as [T|(x & t & T & Hx)]; [discriminate|]. destruct t as [|y [|z t]]; cbn in T; [injection T as ->; auto|discriminate|discriminate]. }
  specialize (IH (pre ++ [c]) w whole). rewrite <- app_assoc in IH. specialize (IH E As T').
  cbv zeta in IH. rewrite existsb_app, last_last in IH. cbn [existsb] in IH. rewrite orb_false_r in IH.
  assert (R : snake_rest whole (List.length pre) (List.length (c :: s)) =
    snake_at whole (List.length pre) ++ snake_rest whole (List.length (pre ++ [c])) (List.length s)).
  { unfold snake_rest. cbn [List.length seq map concat]. rewrite app_length, Nat.add_comm. reflexivity. }
  assert (Nc : nth (List.length pre) whole 0 = c) by (rewrite E; apply nth_mid).
  assert (Np : pre <> [] -> nth (List.length pre - 1) whole 0 = last pre 0).
  { intros Hp. rewrite E. destruct pre as [|a pre'] using rev_ind; [congruence|].
    rewrite last_last, app_length. cbn [List.length]. replace (List.length pre' + 1 - 1)%nat with (List.length pre') by lia.
    rewrite <- app_assoc. apply nth_mid. }
  assert (Fp : firstn (List.length pre) whole = pre) by (rewrite E; apply firstn_mid).
  rewrite R. unfold snake_at, sep_before. cbv zeta. rewrite Nc, Fp. cbn [snake_loop]. cbv zeta.
  rewrite (alnum_ascii u c Ac), Eu, low_lower.
  assert (Pne : existsb alnumb pre = true -> pre <> []) by (intros H ->; discriminate).
  destruct (alnumb c) eqn:Hc.
  - (* letter or digit *)
    rewrite orb_true_r in IH. destruct IH as (_ & IH2 & _). specialize (IH2 eq_refl eq_refl).
    cbn [negb andb].
    split; [|split].
    + intros Hp. rewrite Hp. cbn [andb app]. f_equal. exact IH2.
    + intros Hp Hl. rewrite Hp. rewrite (Np (Pne Hp)), Hl. cbn [negb orb andb].
      rewrite near_lower_ascii, notlow_iff by auto. rewrite (Np (Pne Hp)).
      rewrite IH2. destruct (negb (lowerb c) && _); reflexivity.
    + intros Hp Hl _. rewrite Hp, (Np (Pne Hp)), Hl. cbn [negb orb andb app]. f_equal. f_equal. exact IH2.
  - (* separator *)
    cbn [app]. cbn [negb]. rewrite orb_false_r in IH. destruct IH as (IH1 & _ & IH3).
    assert (Hs : s <> []). { intros H. apply T2 in H. congruence. }
    split; [|split].
    + intros Hp. cbn [negb]. apply IH1. auto.
    + intros Hp Hl. cbn [negb]. apply IH3; auto.
    + intros Hp Hl _. cbn [negb]. apply IH3; auto.
Qed.

Lemma snake_rest_seps whole i n :
  (forall j, (i <= j < i + n)%nat -> alnumb (nth j whole 0) = false) -> snake_rest whole i n = [].
Proof.
  unfold snake_rest. revert i. induction n as [|n IH]; intros i H; auto. cbn [seq map concat].
  rewrite IH by (intros j Hj; apply H; lia). unfold snake_at. rewrite H by lia. auto.
Qed.

Lemma to_snake_spec u l : ascii_text l -> to_snake_case u l = snake_spec l.
Proof.
  intros A. unfold to_snake_case. destruct (trim_right_spec u l) as (w & E & Hw & T).
  assert (Aw : forall c, In c (trim_right u l) -> c < 128) by (intros c Hc; apply A; rewrite E; apply in_or_app; auto).
  destruct (snake_loop_spec u (trim_right u l) [] w l) as (H & _ & _); auto.
  { destruct T as [T|(c & t & T & Hc)]; auto. right. exists c, t. split; auto. rewrite alnum_ascii in Hc; auto.
    apply Aw. rewrite T. apply in_or_app. right. left. auto. }
  cbn [List.length] in H. rewrite (H eq_refl). unfold snake_spec.
  assert (L : List.length l = (List.length (trim_right u l) + List.length w)%nat) by (rewrite E at 1; apply app_length).
  rewrite L, seq_app, map_app, concat_app. fold (snake_rest l 0 (List.length (trim_right u l))).
  fold (snake_rest l (0 + List.length (trim_right u l)) (List.length w)).
  rewrite snake_rest_seps with (n := List.length w); [rewrite app_nil_r; auto|].
  intros j Hj. rewrite E. rewrite app_nth2 by lia.
  rewrite <- (alnum_ascii u).
  - apply Hw. apply nth_In. lia.
  - apply nth_ascii; [|lia]. intros c Hc. apply A. rewrite E. apply in_or_app. auto.
Qed.

(** Shape of the snake-case text, read off the loop for any table of characters. *)
Lemma low_not95 c : alnumb c = true -> low c <> 95.
Proof. unfold alnumb, low. destruct ((65 <=? c) && (c <=? 90)) eqn:E; lia. Qed.

Lemma snake_letters_loop u whole s : (forall c, In c s -> c < 128) -> forall i first,
  letters (snake_loop u whole i first s) = letters s /\
  (forall c, In c (snake_loop u whole i first s) -> lower c \/ digit c \/ c = 95).
Proof.
  unfold letters. induction s as [|c s IH]; intros A i first; cbn [snake_loop]; [split; [auto|intros ? []]|].
  cbv zeta. rewrite (alnum_ascii u c) by (apply A; left; auto).
  assert (A' : forall c, In c s -> c < 128) by (intros x Hx; apply A; right; auto).
  assert (N95 : alnumb 95 = false) by reflexivity.
  cbn [filter]. destruct (alnumb c) eqn:Hc; cbn [negb].
  - destruct (alnum_low c Hc) as [H1 H2]. rewrite low_lower.
    destruct (negb first && (c =? to_ascii_uppercase c) && near_lower u whole i); cbn [filter map];
      rewrite ?N95, ?alnumb_low, ?Hc; cbn [map]; rewrite ?low_idem; destruct (IH A' (i + utf8_len c)%nat false) as [E1 E2].
    + split; [f_equal; auto|]. intros x [<-|[<-|Hx]]; auto. tauto.
    + split; [f_equal; auto|]. intros x [<-|Hx]; auto. tauto.
  - destruct first; cbn [negb filter map]; rewrite ?N95; destruct (IH A' (i + utf8_len c)%nat true) as [E1 E2]; auto.
    split; auto. intros x [<-|Hx]; auto.
Qed.

Lemma filter_trim_right u l : ascii_text l -> letters (trim_right u l) = letters l.
Proof.
  intros A. destruct (trim_right_spec u l) as (w & E & Hw & _). unfold letters. rewrite E at 2. rewrite filter_app, map_app.
  assert (F : filter alnumb w = []).
  { assert (A2 : forall c, In c w -> c < 128) by (intros c Hc; apply A; rewrite E; apply in_or_app; auto).
    clear E. induction w as [|c w IH]; auto. cbn [filter]. rewrite <- (alnum_ascii u) by (apply A2; left; auto).
    rewrite Hw by (left; auto). apply IH; intros x Hx; [apply Hw|apply A2]; right; auto. }
  rewrite F. cbn. rewrite app_nil_r. auto.
Qed.

Lemma snake_letters u l : ascii_text l ->
  letters (to_snake_case u l) = letters l /\ (forall c, In c (to_snake_case u l) -> lower c \/ digit c \/ c = 95).
Proof.
  intros A. unfold to_snake_case. rewrite <- (filter_trim_right u l A). apply snake_letters_loop.
  intros c Hc. apply A. destruct (trim_right_spec u l) as (w & E & _). rewrite E. apply in_or_app. auto.
Qed.

(** starts with a letter or digit, no two underscores in a row, no underscore at the end *)
Lemma snake_shape_loop u whole : forall s i first,
  (s = [] \/ exists c t, s = t ++ [c] /\ is_alphanumeric u c = true) ->
  let r := snake_loop u whole i first s in
  (s <> [] -> r <> []) /\
  (first = true -> r = [] \/ exists c t, r = c :: t /\ c <> 95 /\ exists c0, In c0 s /\ is_alphanumeric u c0 = true /\ c = to_ascii_lowercase c0) /\
  (forall a b, r <> a ++ [95; 95] ++ b) /\ (forall a, r <> a ++ [95]).
Proof.
  induction s as [|c s IH]; intros i first T; cbn [snake_loop]; cbv zeta.
  { split; [congruence|]. split; [auto|]. split; intros []; discriminate. }
  assert (T' : s = [] \/ exists c t, s = t ++ [c] /\ is_alphanumeric u c = true).
  { destruct T as [T|(x & t & T & Hx)]; [discriminate|]. destruct t as [|y t]; [left; cbn in T; congruence|].
    right. exists x, t. injection T as _ ->. auto. }
  assert (T2 : s = [] -> is_alphanumeric u c = true).
  { intros ->. destruct T as [T|(x & t & T & Hx)]; [discriminate|]. destruct t as [|y [|z t]]; cbn in T; [injection T as ->; auto|discriminate|discriminate]. }
  assert (N95 : is_alphanumeric u 95 = false) by reflexivity.
  assert (L95 : forall x, is_alphanumeric u x = true -> to_ascii_lowercase x <> 95).
  { intros x Hx E. unfold to_ascii_lowercase in E. destruct (is_ascii_upper x) eqn:Eu.
    - unfold is_ascii_upper in Eu. lia.
    - subst x. congruence. }
  assert (C : forall (x : N) r, x <> 95 -> ((forall a b, r <> a ++ [95; 95] ++ b) /\ (forall a, r <> a ++ [95])) ->
    (forall a b, x :: r <> a ++ [95; 95] ++ b) /\ (forall a, x :: r <> a ++ [95])).
  { intros x r Hx [H1 H2]. split.
    - intros [|y a] b E; cbn in E; injection E as E1 E2; [auto|]. exact (H1 a b E2).
    - intros [|y a] E; cbn in E; injection E as E1 E2; [auto|]. exact (H2 a E2). }
  assert (U : forall (x : N) r, x <> 95 -> ((forall a b, r <> a ++ [95; 95] ++ b) /\ (forall a, r <> a ++ [95])) ->
    (forall a b, 95 :: x :: r <> a ++ [95; 95] ++ b) /\ (forall a, 95 :: x :: r <> a ++ [95])).
  { intros x r Hx H. destruct (C x r Hx H) as [H1 H2]. split.
    - intros [|y a] b E; cbn in E; [congruence|]. apply (f_equal (@tl N)) in E. exact (H1 a b E).
    - intros [|y a] E; cbn in E; [discriminate|]. apply (f_equal (@tl N)) in E. exact (H2 a E). }
  destruct (is_alphanumeric u c) eqn:Hc; cbn [negb].
  - destruct (IH (i + utf8_len c)%nat false T') as (_ & _ & H3 & H4).
    specialize (L95 c Hc).
    destruct (negb first && (c =? to_ascii_uppercase c) && near_lower u whole i) eqn:E.
    + split; [discriminate|]. split; [intros ->; discriminate|]. apply U; auto.
    + split; [discriminate|]. split; [|apply C; auto]. intros _. right. eexists _, _. split; [reflexivity|].
      split; auto. exists c. split; [left; auto|]. auto.
  - assert (Hs : s <> []). { intros H. apply T2 in H. congruence. }
    destruct (IH (i + utf8_len c)%nat true T') as (H1 & H2 & H3 & H4).
    destruct first; cbn [negb].
    + split; [auto|]. split; [|auto]. intros _. destruct (H2 eq_refl) as [H|(x & t & E & Hx & c0 & Hc0 & K)]; auto.
      right. exists x, t. split; auto. split; auto. exists c0. split; [right; auto|]. auto.
    + split; [discriminate|]. split; [discriminate|].
      destruct (H2 eq_refl) as [H|(x & t & E & Hx & _)]; [exfalso; apply (H1 Hs); auto|].
      rewrite E in *. apply U; auto. split.
      * intros a b Et. apply (H3 (x :: a) b). cbn. f_equal. exact Et.
      * intros a Et. apply (H4 (x :: a)). cbn. f_equal. exact Et.
Qed.

Lemma trim_right_nil u l : trim_right u l = [] <-> forall c, In c l -> is_alphanumeric u c = false.
Proof.
  destruct (trim_right_spec u l) as (w & E & Hw & T). split.
  - intros H. rewrite H in E. cbn in E. rewrite E. auto.
  - intros H. destruct T as [T|(c & t & T & Hc)]; auto. rewrite H in Hc; [discriminate|].
    rewrite E, T. apply in_or_app. left. apply in_or_app. right. left. auto.
Qed.

Lemma snake_nonempty u l : to_snake_case u l = [] <-> forall c, In c l -> is_alphanumeric u c = false.
Proof.
  unfold to_snake_case. rewrite <- trim_right_nil. destruct (trim_right_spec u l) as (w & E & Hw & T).
  destruct (snake_shape_loop u l (trim_right u l) 0 true T) as (H & _). split.
  - intros Hn. destruct (trim_right u l) as [|x y]; auto. exfalso. apply H; auto. discriminate.
  - intros ->. reflexivity.
Qed.

(** ** sanitize *)
Lemma existsb_str s l : existsb (str_eqb s) l = true <-> In s l.
Proof.
  rewrite existsb_exists. split.
  - intros (x & H & E). apply str_eqb_eq in E. subst. auto.
  - intros H. exists s. split; auto. apply str_eqb_refl.
Qed.

Lemma reserved_known s : In s rust_reserved -> In s rs_keywords \/ s = lit "try".
Proof.
  assert (K : forallb (fun r => existsb (str_eqb r) rs_keywords || str_eqb r (lit "try")) rust_reserved = true) by reflexivity.
  rewrite forallb_forall in K. intros H. apply K in H. apply orb_true_iff in H as [H|H].
  - left. apply existsb_str; auto.
  - right. apply str_eqb_eq; auto.
Qed.

Lemma reserved_no_underscore s : ~ In (95 :: s) rust_reserved.
Proof.
  assert (K : forallb (fun r => match r with c :: _ => negb (c =? 95) | [] => true end) rust_reserved = true) by reflexivity.
  rewrite forallb_forall in K. intros H. apply K in H. discriminate.
Qed.

Definition word_shape (s : str) : Prop :=
  s <> [] /\ (forall c, In c s -> alnum c \/ c = 95) /\ s <> [95].

Lemma sanitize_ident u s : word_shape s -> rust_ident (sanitize u s) \/ sanitize u s = lit "try".
Proof.
  intros (H1 & H2 & H3). destruct s as [|c s]; [congruence|]. unfold sanitize.
  assert (Hc : alnum c \/ c = 95) by (apply H2; left; auto).
  assert (A : c < 128). { unfold alnum, letter, lower, upper, digit in Hc. lia. }
  rewrite numeric_ascii by auto.
  destruct (is_ascii_digit c) eqn:D; cbn [orb].
  - left. split; [|apply reserved_no_underscore].
    exists 95, (c :: s). split; auto. split; auto. split; [intros x Hx; auto|]. discriminate.
  - destruct (existsb _ _) eqn:K.
    + left. split; [|apply reserved_no_underscore].
      exists 95, (c :: s). split; auto. split; auto. split; [intros x Hx; auto|]. discriminate.
    + destruct (list_eq_dec N.eq_dec (c :: s) (lit "try")) as [Et|Nt]; [auto|].
      left. split.
      * exists c, s. split; auto. split; [|split; [intros x Hx; apply H2; right; auto|auto]].
        unfold is_ascii_digit in D. destruct Hc as [[Hc|Hc]|Hc]; [left; exact Hc| |auto]. unfold digit in Hc. lia.
      * intros Hr. apply reserved_known in Hr as [Hr|Hr]; auto.
        apply existsb_str in Hr. congruence.
Qed.

Lemma sanitize_shape u s : sanitize u s = s \/ sanitize u s = 95 :: s.
Proof. destruct s as [|c s]; cbn; auto. destruct (_ || _); auto. Qed.

Lemma letters_95 s : letters (95 :: s) = letters s.
Proof. reflexivity. Qed.

Lemma sanitize_letters u s : letters (sanitize u s) = letters s.
Proof. destruct (sanitize_shape u s) as [->| ->]; auto. Qed.

Lemma letters_nonempty l : letters l = [] <-> forall c, In c l -> alnumb c = false.
Proof.
  unfold letters. induction l as [|c l IH]; cbn [filter].
  - split; auto. intros _ c [].
  - destruct (alnumb c) eqn:E; cbn [map].
    + split; [discriminate|]. intros H. rewrite H in E by (left; auto). discriminate.
    + rewrite IH. split; intros H x Hx; [destruct Hx as [<-|Hx]; auto|apply H; right; auto].
Qed.

Lemma format_name_ident u name l : local name l -> ascii_text l -> (exists c, In c l /\ alnum c) ->
  let r := format_name u name in
  (rust_ident r \/ r = lit "try") /\ snake_shape r /\ letters r = letters l.
Proof.
  intros L A (c0 & Hc0 & Ac0). cbv zeta. unfold format_name. rewrite (last_segment_local _ _ L).
  destruct (snake_letters u l A) as [E1 E2].
  pose proof (trim_right_spec u l) as (w & Ew & _ & T).
  destruct (snake_shape_loop u l (trim_right u l) 0 true T) as (S1 & S2 & S3 & S4).
  fold (to_snake_case u l) in S1, S2, S3, S4. set (r := to_snake_case u l) in *.
  assert (Hr : r <> []).
  { unfold r. rewrite snake_nonempty. intros H. apply alnumb_iff in Ac0.
    rewrite <- (alnum_ascii u) in Ac0 by (apply A; auto). rewrite H in Ac0; auto. discriminate. }
  destruct (S2 eq_refl) as [S|(c & t & Er & Hc & c1 & Hc1 & Hal & Hlow)]; [congruence|].
  split; [|split].
  - apply sanitize_ident. split; auto. split.
    + intros x Hx. apply E2 in Hx. unfold alnum, letter. tauto.
    + rewrite Er. intros [= E _]. auto.
  - destruct (sanitize_shape u r) as [->| ->].
    + split; auto.
    + split; [intros x [<-|Hx]; auto|]. split.
      * intros [|y a] b E; cbn in E; [|apply (f_equal (@tl N)) in E; exact (S3 a b E)].
        rewrite Er in E. injection E as E _. auto.
      * intros [|y a] E; cbn in E; [congruence|apply (f_equal (@tl N)) in E; exact (S4 a E)].
  - rewrite sanitize_letters. auto.
Qed.

Lemma format_name_empty u name l : local name l ->
  (format_name u name = [] <-> forall c, In c l -> is_alphanumeric u c = false).
Proof.
  intros L. unfold format_name. rewrite (last_segment_local _ _ L), <- snake_nonempty.
  destruct (to_snake_case u l) as [|c t] eqn:E; [cbn; tauto|].
  split; [|discriminate]. unfold sanitize. destruct (_ || _); discriminate.
Qed.

Lemma format_name_snake u name l : local name l -> ascii_text l ->
  format_name u name = snake_spec l \/ format_name u name = 95 :: snake_spec l.
Proof.
  intros L A. unfold format_name. rewrite (last_segment_local _ _ L), to_snake_spec by auto. apply sanitize_shape.
Qed.

(** exactly when the underscore is added *)
Lemma format_name_exact u name l : local name l -> ascii_text l ->
  (format_name u name = 95 :: snake_spec l <->
   (exists c t, snake_spec l = c :: t /\ digit c) \/ In (snake_spec l) rs_keywords).
Proof.
  intros L A. unfold format_name. rewrite (last_segment_local _ _ L), to_snake_spec by auto.
  assert (Ne : forall x : str, x <> 95 :: x).
  { induction x as [|y x IH]; [discriminate|]. intros [= -> E]. auto. }
  assert (Al : ascii_text (snake_spec l)).
  { intros c Hc. rewrite <- (to_snake_spec u l A) in Hc. apply (snake_letters u l A) in Hc. unfold lower, digit in Hc. lia. }
  destruct (snake_spec l) as [|c t] eqn:E.
  - cbn [sanitize]. split; [discriminate|]. intros [(c & t & H & _)|H]; [discriminate|]. exfalso.
    assert (K : existsb (str_eqb []) rs_keywords = false) by reflexivity. apply existsb_str in H. congruence.
  - unfold sanitize. rewrite numeric_ascii by (apply Al; left; auto).
    destruct (is_ascii_digit c || existsb (str_eqb (c :: t)) rs_keywords) eqn:B.
    + split; auto. intros _. apply orb_true_iff in B as [B|B].
      * left. exists c, t. split; auto. unfold is_ascii_digit in B. unfold digit. lia.
      * right. apply existsb_str; auto.
    + apply orb_false_iff in B as [B1 B2]. split; [intros H; exfalso; eapply Ne; eauto|].
      intros [(x & y & [= <- <-] & D)|K].
      * unfold is_ascii_digit in B1. unfold digit in D. lia.
      * apply existsb_str in K. congruence.
Qed.

(** ** Pascal case *)
Lemma pascal_letters u s : forall nw last f, letters (pascal_loop u nw last f s) = letters s.
Proof.
  induction s as [|c s IH]; intros nw last f; cbn [pascal_loop]; auto.
  assert (K : is_alphanumeric u c = false -> letters (c :: s) = letters s).
  { intros H. unfold letters. cbn [filter]. destruct (alnumb c) eqn:E; auto.
    rewrite (alnum_ascii u) in H by (apply alnumb_ascii; auto). congruence. }
  assert (C : forall x r, low x = low c -> alnumb x = alnumb c -> letters r = letters s -> letters (x :: r) = letters (c :: s)).
  { intros x r H1 H2 H3. unfold letters in *. cbn [filter]. rewrite H2. destruct (alnumb c); cbn [map]; congruence. }
  destruct (is_alphanumeric u c) eqn:A; cbn [negb andb].
  - rewrite andb_false_r. destruct (is_numeric u c); [apply C; auto|].
    destruct (_ || _).
    + apply C; auto; [apply low_upper|apply alnumb_upper].
    + rewrite low_lower. apply C; auto; [apply low_idem|apply alnumb_low].
  - rewrite K by auto. destruct f; cbn [andb negb]; apply IH.
Qed.

Lemma letters_trim u l : letters (trim_right u l) = letters l.
Proof.
  destruct (trim_right_spec u l) as (w & E & Hw & _). unfold letters. rewrite E at 2. rewrite filter_app, map_app.
  assert (F : filter alnumb w = []).
  { clear E. induction w as [|c w IH]; auto. cbn [filter]. destruct (alnumb c) eqn:Ec.
    - rewrite <- (alnum_ascii u) in Ec by (apply alnumb_ascii; auto). rewrite Hw in Ec by (left; auto). discriminate.
    - apply IH. intros x Hx. apply Hw. right. auto. }
  rewrite F. cbn. rewrite app_nil_r. auto.
Qed.

Lemma to_pascal_letters u l : letters (to_pascal_case u l) = letters l.
Proof. unfold to_pascal_case. rewrite pascal_letters. apply letters_trim. Qed.

Lemma filter_type_letters u s : letters (filter_type_name u s) = letters s.
Proof.
  unfold letters, filter_type_name. f_equal. induction s as [|c s IH]; auto. cbn [filter].
  destruct (alnumb c) eqn:E.
  - assert (V : is_valid_symbol u c = true).
    { pose proof (alnumb_ascii c E) as A. unfold is_valid_symbol. rewrite alnum_ascii, E by auto.
      unfold is_ascii, is_whitespace, alnumb in *. lia. }
    rewrite V. cbn [filter]. rewrite E. f_equal. auto.
  - destruct (is_valid_symbol u c); cbn [filter]; rewrite ?E; auto.
Qed.

Lemma pascal_chars u s : forall nw last f c, In c (pascal_loop u nw last f s) -> c <> 95.
Proof.
  induction s as [|c s IH]; intros nw last f x; cbn [pascal_loop]; [intros []|].
  assert (N95 : is_alphanumeric u c = true -> c <> 95) by (intros H ->; discriminate).
  destruct (is_alphanumeric u c) eqn:A; cbn [negb andb].
  - rewrite andb_false_r. destruct (is_numeric u c); [intros [<-|Hx]; eauto|].
    destruct (_ || _); intros [<-|Hx]; try (eapply IH; eauto; fail).
    + specialize (N95 eq_refl). unfold to_ascii_uppercase, is_ascii_lower. destruct (_ && _) eqn:E; lia.
    + specialize (N95 eq_refl). unfold to_ascii_lowercase, is_ascii_upper. destruct (_ && _) eqn:E; lia.
  - destruct f; cbn [andb negb]; apply IH.
Qed.

Definition pascal_name (u : uni) (l : str) : str := filter_type_name u (to_pascal_case u l).

Lemma pascal_name_alnum u l : (forall c, In c (pascal_name u l) -> alnum c) /\ letters (pascal_name u l) = letters l.
Proof.
  split; [|unfold pascal_name; rewrite filter_type_letters; apply to_pascal_letters].
  intros c Hc. unfold pascal_name, filter_type_name in Hc. apply filter_In in Hc as [H1 H2].
  apply pascal_chars in H1. unfold is_valid_symbol in H2. apply andb_true_iff in H2 as [H2 _].
  apply andb_true_iff in H2 as [H2 H3]. unfold is_ascii in H3. rewrite alnum_ascii in H2 by lia.
  apply alnumb_iff. destruct (alnumb c); auto. lia.
Qed.

Lemma pascal_name_word u l : letters l <> [] -> word_shape (pascal_name u l).
Proof.
  intros H. destruct (pascal_name_alnum u l) as [A L]. split; [|split].
  - intros E. rewrite E in L. apply H. rewrite <- L. reflexivity.
  - intros c Hc. left. auto.
  - intros E. specialize (A 95). rewrite E in A. specialize (A (or_introl eq_refl)).
    unfold alnum, letter, lower, upper, digit in A. lia.
Qed.

Lemma letters_iff l : letters l <> [] <-> exists c, In c l /\ alnum c.
Proof.
  split.
  - intros H. induction l as [|c l IH]; [exfalso; apply H; reflexivity|].
    destruct (alnumb c) eqn:E; [exists c; split; [left; auto|apply alnumb_iff; auto]|].
    destruct IH as (x & Hx & Ax).
    + intros E2. apply H. unfold letters in *. cbn [filter]. rewrite E. auto.
    + exists x. split; auto. right; auto.
  - intros (c & Hc & Ac) E. apply alnumb_iff in Ac. rewrite (proj1 (letters_nonempty l) E c Hc) in Ac. discriminate.
Qed.

Lemma opt_str_eqb_eq a b : opt_str_eqb a b = true <-> a = b.
Proof.
  destruct a, b; cbn; try (split; [discriminate|discriminate]); try tauto.
  rewrite str_eqb_eq. split; [intros ->; auto|intros [= ->]; auto].
Qed.

Lemma format_type_own u name p l xsd tns : qualified name p l ->
  match_built_in_type name xsd = None -> (p = None \/ p = ns_prefix tns) ->
  format_type_name u name xsd tns = sanitize u (pascal_name u l).
Proof.
  intros Q B P. unfold format_type_name. rewrite B. unfold default_format_type.
  apply split_name_iff in Q. rewrite Q. fold (pascal_name u l). cbv zeta. destruct P as [->| ->]; [auto|].
  destruct (ns_prefix tns) as [t|]; auto. rewrite str_eqb_refl. auto.
Qed.

Lemma colon_not_keyword s : In 58 s -> existsb (str_eqb s) rs_keywords = false.
Proof.
  intros H. destruct (existsb _ _) eqn:E; auto. apply existsb_str in E.
  assert (K : forallb (fun k => negb (existsb (N.eqb 58) k)) rs_keywords = true) by reflexivity.
  rewrite forallb_forall in K. specialize (K s E). apply negb_true_iff in K.
  rewrite <- K. symmetry. apply existsb_exists. exists 58. split; auto.
Qed.

Lemma format_type_foreign u name q l xsd tns : qualified name (Some q) l ->
  match_built_in_type name xsd = None -> ns_prefix tns <> Some q ->
  format_type_name u name xsd tns =
  (match q with c :: _ => if is_numeric u c then [95] else [] | [] => [] end)
    ++ q ++ lit "::" ++ pascal_name u l.
Proof.
  intros Q B P. unfold format_type_name. rewrite B. unfold default_format_type.
  apply split_name_iff in Q. rewrite Q. fold (pascal_name u l). cbv zeta.
  assert (S : sanitize u (q ++ lit "::" ++ pascal_name u l) =
    (match q with c :: _ => if is_numeric u c then [95] else [] | [] => [] end) ++ q ++ lit "::" ++ pascal_name u l).
  { assert (H : In 58 (q ++ lit "::" ++ pascal_name u l)) by (apply in_or_app; right; left; reflexivity).
    pose proof (colon_not_keyword _ H) as K. unfold sanitize. destruct q as [|c q].
    - change (lit "::") with [58; 58] in *. cbn [app] in *. rewrite K. reflexivity.
    - cbn [app] in *. rewrite K, orb_false_r. destruct (is_numeric u c); reflexivity. }
  destruct (ns_prefix tns) as [t|]; auto.
  destruct (str_eqb q t) eqn:E; auto. apply str_eqb_eq in E. congruence.
Qed.

(** Pascal case on names already in that form, and on lower-case words *)
Lemma trim_right_id u l c : is_alphanumeric u c = true -> trim_right u (l ++ [c]) = l ++ [c].
Proof.
  intros H. unfold trim_right. rewrite rev_app_distr. cbn [rev app drop_sep]. rewrite H. cbn [rev]. rewrite rev_involutive. auto.
Qed.
Lemma trim_right_letters u l : (forall c, In c l -> alnum c) -> trim_right u l = l.
Proof.
  intros H. destruct l as [|c l] using rev_ind; [reflexivity|]. apply trim_right_id.
  assert (A : alnum c) by (apply H; apply in_or_app; right; left; auto).
  apply alnumb_iff in A. rewrite alnum_ascii; auto. apply alnumb_ascii; auto.
Qed.

Ltac cls := unfold alnum, letter, lower, upper, digit, is_ascii_digit, is_ascii_upper, is_ascii_lower, is_ascii,
  is_ascii_alpha, to_ascii_uppercase, to_ascii_lowercase in *.

Lemma letter_facts u c : letter c ->
  is_alphanumeric u c = true /\ is_numeric u c = false /\ is_uppercase u c = is_ascii_upper c /\
  is_lowercase u c = is_ascii_lower c /\ (c =? 32) = false.
Proof.
  intros H. assert (A : c < 128) by (cls; lia).
  rewrite alnum_ascii, numeric_ascii, upper_ascii, lower_ascii by auto. unfold alnumb. cls.
  repeat split; lia.
Qed.

Lemma pascal_body u : forall s last, lower last -> (forall c, In c s -> letter c) ->
  pascal_loop u false last true s = s.
Proof.
  induction s as [|c s IH]; intros last Hl H; auto. cbn [pascal_loop].
  destruct (letter_facts u c) as (F1 & F2 & F3 & F4 & F5); [apply H; left; auto|].
  destruct (letter_facts u last) as (G1 & G2 & G3 & G4 & G5); [left; auto|].
  rewrite F1, F2, F3, G4, G5. cbn [negb andb orb].
  assert (Hc : letter c) by (apply H; left; auto).
  assert (H' : forall x, In x s -> letter x) by (intros x Hx; apply H; right; auto).
  assert (El : is_ascii_lower last = true) by (cls; lia). rewrite El. cbn [andb]. rewrite andb_true_r.
  destruct (is_ascii_upper c) eqn:E.
  - rewrite IH by auto. f_equal. unfold to_ascii_uppercase. destruct (is_ascii_lower c) eqn:E2; auto. cls. lia.
  - rewrite IH; auto; [|destruct Hc as [Hc|Hc]; auto; cls; lia].
    f_equal. unfold to_ascii_lowercase. rewrite E. auto.
Qed.

Lemma filter_id {A} (f : A -> bool) l : (forall x, In x l -> f x = true) -> filter f l = l.
Proof.
  induction l as [|x l IH]; intros H; auto. cbn [filter]. rewrite H by (left; auto). f_equal. apply IH. intros y Hy. apply H. right; auto.
Qed.

Lemma filter_alnum u s : (forall c, In c s -> alnum c) -> filter_type_name u s = s.
Proof.
  intros H. apply filter_id. intros c Hc. apply H in Hc. apply alnumb_iff in Hc. pose proof (alnumb_ascii c Hc) as A.
  unfold is_valid_symbol. rewrite alnum_ascii, Hc by auto. unfold is_ascii, is_whitespace, alnumb in *. lia.
Qed.

Lemma pascal_canonical u s : canonical_pascal s -> pascal_name u s = s.
Proof.
  intros (a & b & t & -> & Ha & Hb & Ht).
  assert (Al : forall c, In c (a :: b :: t) -> alnum c).
  { intros c [<-|[<-|Hc]]; left; [right; auto|left; auto|auto]. }
  unfold pascal_name, to_pascal_case. rewrite trim_right_letters by auto.
  assert (E : pascal_loop u true 32 false (a :: b :: t) = a :: b :: t).
  { cbn [pascal_loop].
    destruct (letter_facts u a) as (F1 & F2 & _); [right; auto|].
    destruct (letter_facts u b) as (G1 & G2 & G3 & _); [left; auto|].
    rewrite F1, F2, G1, G2, G3. cbn [negb andb orb].
    assert (E1 : to_ascii_uppercase a = a) by (unfold to_ascii_uppercase; destruct (is_ascii_lower a) eqn:E; auto; cls; lia).
    assert (E2 : to_ascii_lowercase b = b) by (unfold to_ascii_lowercase; destruct (is_ascii_upper b) eqn:E; auto; cls; lia).
    assert (E3 : is_ascii_upper b = false) by (cls; lia).
    rewrite E1, E3, andb_false_r. cbn [andb]. rewrite E2, pascal_body; auto. }
  rewrite E. apply filter_alnum; auto.
Qed.

Lemma pascal_lower_tail u : forall s last, (last = 32 \/ lower last) -> (forall c, In c s -> lower c) ->
  pascal_loop u false last true s = s.
Proof.
  induction s as [|c s IH]; intros last Hl H; auto. cbn [pascal_loop].
  assert (Hc : lower c) by (apply H; left; auto).
  destruct (letter_facts u c) as (F1 & F2 & F3 & F4 & F5); [left; auto|].
  rewrite F1, F2, F3. cbn [negb andb orb].
  assert (E : is_ascii_upper c = false) by (cls; lia). rewrite E, andb_false_r. cbn [andb].
  rewrite IH; auto.
  - f_equal. unfold to_ascii_lowercase. rewrite E. auto.
  - intros x Hx. apply H. right; auto.
Qed.

Lemma pascal_lower_word u c t : lower c -> (forall x, In x t -> lower x) -> pascal_name u (c :: t) = (c - 32) :: t.
Proof.
  intros Hc Ht. assert (Al : forall x, In x (c :: t) -> alnum x) by (intros x [<-|Hx]; left; left; auto).
  unfold pascal_name, to_pascal_case. rewrite trim_right_letters by auto. cbn [pascal_loop].
  destruct (letter_facts u c) as (F1 & F2 & _); [left; auto|].
  rewrite F1, F2. cbn [negb andb orb]. rewrite pascal_lower_tail by auto.
  assert (E1 : to_ascii_uppercase c = c - 32) by (unfold to_ascii_uppercase; destruct (is_ascii_lower c) eqn:E; auto; cls; lia).
  rewrite E1. apply filter_alnum. intros x [<-|Hx]; [|left; left; auto]. clear - Hc. cls.
  lia.
Qed.

(** A letter at the start or after a character that is no letter is written in upper case. *)
Lemma letters_app a b : letters (a ++ b) = letters a ++ letters b.
Proof. unfold letters. rewrite filter_app, map_app. auto. Qed.

Lemma pascal_app u : forall a, ascii_text a -> exists P nw last f,
  (forall s, pascal_loop u true 32 false (a ++ s) = P ++ pascal_loop u nw last f s) /\
  letters P = letters a /\
  (f = false -> nw = true) /\ (a = [] \/ ~ letter (List.last a 0) -> nw = true).
Proof.
  induction a as [|c a IH] using rev_ind; intros A.
  - exists [], true, 32, false. repeat split; auto.
  - destruct IH as (P & nw & la & f & H1 & H2 & H3 & H4); [intros x Hx; apply A; apply in_or_app; auto|].
    assert (Ac : c < 128) by (apply A; apply in_or_app; right; left; auto).
    rewrite last_last.
    assert (S : exists x nw1 la1 f1, (forall s, pascal_loop u nw la f (c :: s) = x ++ pascal_loop u nw1 la1 f1 s) /\
      letters x = letters [c] /\ (f1 = false -> nw1 = true) /\ (~ letter c -> nw1 = true)).
    { destruct (alnumb c) eqn:E.
      - destruct (is_ascii_digit c) eqn:D.
        + exists [c], true, la, true. repeat split; auto. intros s. cbn [pascal_loop].
          rewrite alnum_ascii, numeric_ascii, E, D by auto. cbn [negb andb]. rewrite andb_false_r. reflexivity.
        + assert (L : letter c). { apply alnumb_iff in E. destruct E as [E|E]; auto. cls. lia. }
          destruct (nw || is_lowercase u la && is_uppercase u c && negb (la =? 32)) eqn:B.
          * exists [to_ascii_uppercase c], false, la, true. split; [|split; [|split; [discriminate|tauto]]].
            -- intros s. cbn [pascal_loop]. rewrite alnum_ascii, numeric_ascii, E, D by auto. cbn [negb andb].
               rewrite andb_false_r, B. reflexivity.
            -- unfold letters. cbn [filter]. rewrite alnumb_upper, E. cbn [map]. rewrite low_upper. auto.
          * exists [to_ascii_lowercase c], false, c, true. split; [|split; [|split; [discriminate|tauto]]].
            -- intros s. cbn [pascal_loop]. rewrite alnum_ascii, numeric_ascii, E, D by auto. cbn [negb andb].
               rewrite andb_false_r, B. reflexivity.
            -- unfold letters. cbn [filter]. rewrite low_lower, alnumb_low, E. cbn [map]. rewrite low_idem. auto.
      - destruct f.
        + exists [], true, la, true. repeat split; auto.
          * intros s. cbn [pascal_loop]. rewrite alnum_ascii, E by auto. reflexivity.
          * unfold letters. cbn [filter]. rewrite E. auto.
        + exists [], nw, la, false. repeat split; auto.
          * intros s. cbn [pascal_loop]. rewrite alnum_ascii, E by auto. reflexivity.
          * unfold letters. cbn [filter]. rewrite E. auto. }
    destruct S as (x & nw1 & la1 & f1 & S1 & S2 & S3 & S4).
    exists (P ++ x), nw1, la1, f1. split; [|split; [|split]]; auto.
    + intros s. rewrite <- app_assoc. cbn [app]. rewrite H1, S1, app_assoc. auto.
    + rewrite !letters_app, H2, S2. auto.
    + intros [H|H]; auto. destruct a; discriminate.
Qed.

Lemma trim_right_app u a c b : is_alphanumeric u c = true ->
  trim_right u (a ++ c :: b) = a ++ c :: trim_right u b.
Proof.
  intros H. unfold trim_right. replace (rev (a ++ c :: b)) with (rev b ++ c :: rev a).
  - assert (K : forall w z, drop_sep u (w ++ c :: z) = drop_sep u w ++ c :: z).
    { induction w as [|x w IH]; intros z; cbn [app drop_sep]; [rewrite H; auto|]. destruct (is_alphanumeric u x); auto. }
    rewrite K, rev_app_distr. cbn [rev]. rewrite rev_involutive, <- app_assoc. reflexivity.
  - rewrite rev_app_distr. cbn [rev]. rewrite <- app_assoc. reflexivity.
Qed.

Lemma pascal_word_start u a c b : ascii_text a -> letter c -> (a = [] \/ ~ letter (List.last a 0)) ->
  exists P Q, pascal_name u (a ++ c :: b) = P ++ to_ascii_uppercase c :: Q /\ letters P = letters a.
Proof.
  intros A L W. unfold pascal_name, to_pascal_case.
  destruct (letter_facts u c L) as (F1 & F2 & F3 & F4 & F5).
  rewrite trim_right_app by auto. destruct (pascal_app u a A) as (P & nw & la & f & H1 & H2 & H3 & H4).
  rewrite H1. rewrite (H4 W). cbn [pascal_loop]. rewrite F1, F2. cbn [negb andb orb]. rewrite andb_false_r.
  exists (filter_type_name u P), (filter_type_name u (pascal_loop u false la true (trim_right u b))).
  split; [|rewrite filter_type_letters; auto].
  unfold filter_type_name. rewrite filter_app. f_equal. cbn [filter].
  assert (V : is_valid_symbol u (to_ascii_uppercase c) = true).
  { assert (A2 : to_ascii_uppercase c < 128) by (unfold to_ascii_uppercase; destruct (is_ascii_lower c) eqn:E; cls; lia).
    unfold is_valid_symbol. rewrite alnum_ascii, alnumb_upper by auto.
    assert (alnumb c = true) as -> by (apply alnumb_iff; left; auto).
    assert (R : 65 <= to_ascii_uppercase c <= 90).
    { unfold to_ascii_uppercase, is_ascii_lower. unfold letter, lower, upper in L. destruct ((97 <=? c) && (c <=? 122)) eqn:E; lia. }
    revert R. generalize (to_ascii_uppercase c). clear. intros x R. unfold is_ascii, is_whitespace. lia. }
  rewrite V. auto.
Qed.

(** ** Injectivity on names already in target form *)
Lemma snake_loop_id u whole : forall s i first, (forall c, In c s -> lower c \/ c = 95) ->
  (forall a b, s <> a ++ [95; 95] ++ b) -> (first = true -> forall b, s <> 95 :: b) ->
  snake_loop u whole i first s = s.
Proof.
  induction s as [|c s IH]; intros i first H1 H2 H3; auto. cbn [snake_loop]. cbv zeta.
  assert (H1' : forall c, In c s -> lower c \/ c = 95) by (intros x Hx; apply H1; right; auto).
  assert (H2' : forall a b, s <> a ++ [95; 95] ++ b).
  { intros a b E. apply (H2 (c :: a) b). cbn. f_equal. exact E. }
  destruct (H1 c (or_introl eq_refl)) as [Hc| ->].
  - destruct (letter_facts u c) as (F1 & _); [left; auto|]. rewrite F1. cbn [negb].
    assert (E : (c =? to_ascii_uppercase c) = false).
    { clear - Hc. unfold to_ascii_uppercase, is_ascii_lower. unfold lower in Hc. destruct ((97 <=? c) && (c <=? 122)) eqn:E; lia. }
    rewrite E, andb_false_r. cbn [andb].
    rewrite IH; auto; [|discriminate]. f_equal. unfold to_ascii_lowercase. destruct (is_ascii_upper c) eqn:E2; auto. cls. lia.
  - change (is_alphanumeric u 95) with false. cbn [negb]. destruct first; cbn [negb].
    + exfalso. apply (H3 eq_refl s). auto.
    + f_equal. apply IH; auto. intros _ b ->. apply (H2 [] b). reflexivity.
Qed.

Lemma snake_word_id u s : snake_word s -> to_snake_case u s = s.
Proof.
  intros (H1 & H2 & H3 & H4 & H5). unfold to_snake_case.
  assert (T : trim_right u s = s).
  { destruct s as [|c s] using rev_ind; [congruence|]. apply trim_right_id.
    destruct (H1 c) as [Hc| ->]; [apply in_or_app; right; left; auto| |exfalso; apply (H3 s); auto].
    apply letter_facts. left; auto. }
  rewrite T. apply snake_loop_id; auto.
Qed.

Lemma snake_word_no_colon s : snake_word s -> local s s.
Proof. intros (H1 & _). split; auto. intros H. apply H1 in H. unfold lower in H. lia. Qed.

Lemma format_name_inj u a b : snake_word a -> snake_word b -> format_name u a = format_name u b -> a = b.
Proof.
  intros A B. unfold format_name. rewrite (last_segment_local _ _ (snake_word_no_colon _ A)),
    (last_segment_local _ _ (snake_word_no_colon _ B)), !snake_word_id by auto.
  destruct A as (_ & _ & _ & A & _), B as (_ & _ & _ & B & _).
  destruct (sanitize_shape u a) as [->| ->], (sanitize_shape u b) as [->| ->]; auto; intros E.
  - exfalso. eapply A; eauto.
  - exfalso. eapply B; eauto.
  - congruence.
Qed.

Lemma canonical_no_colon s : canonical_pascal s -> qualified s None s.
Proof.
  intros (a & b & t & -> & Ha & Hb & Ht). split; auto. intros [H|[H|H]]; [| |apply Ht in H]; cls; lia.
Qed.

Lemma format_type_inj u xsd tns a b : canonical_pascal a -> canonical_pascal b ->
  match_built_in_type a xsd = None -> match_built_in_type b xsd = None ->
  format_type_name u a xsd tns = format_type_name u b xsd tns -> a = b.
Proof.
  intros A B Ma Mb. rewrite (format_type_own u a None a), (format_type_own u b None b) by auto using canonical_no_colon.
  rewrite !pascal_canonical by auto.
  destruct A as (a1 & a2 & a3 & -> & A & _), B as (b1 & b2 & b3 & -> & B & _).
  destruct (sanitize_shape u (a1 :: a2 :: a3)) as [->| ->], (sanitize_shape u (b1 :: b2 :: b3)) as [->| ->]; auto; intros E.
  - injection E as -> _. cls. lia.
  - injection E as <- _. cls. lia.
  - injection E as -> -> ->. auto.
Qed.

(** ** Built-in types *)
From Verif Require Import SpecLex TzProofs Ints IntsProofs Prim SpecBuiltin.

Lemma built_in_iff name xsd t : match_built_in_type name xsd = Some t <->
  exists l, qualified name (ns_prefix xsd) l /\ assoc l built_in_table = Some t.
Proof.
  unfold match_built_in_type. pose proof (split_name_qualified name) as Q. destruct (split_name name) as [p l].
  destruct (opt_str_eqb (ns_prefix xsd) p) eqn:E; cbn [negb].
  - apply opt_str_eqb_eq in E. subst p. split.
    + intros H. eauto.
    + intros (l' & Q' & H). destruct (qualified_unique _ _ _ _ _ Q Q') as [_ ->]. auto.
  - split; [discriminate|]. intros (l' & Q' & H). destruct (qualified_unique _ _ _ _ _ Q Q') as [-> _].
    assert (opt_str_eqb (ns_prefix xsd) (ns_prefix xsd) = true) by (apply opt_str_eqb_eq; auto). congruence.
Qed.

Lemma assoc_in {A} k (l : list (str * A)) v : assoc k l = Some v -> In (k, v) l.
Proof.
  induction l as [|[k' v'] l IH]; cbn [assoc]; [discriminate|].
  destruct (str_eqb k k') eqn:E; [|right; auto]. apply str_eqb_eq in E. subst. intros [= ->]. left; auto.
Qed.
Lemma assoc_none {A} k (l : list (str * A)) : assoc k l = None <-> ~ In k (map fst l).
Proof.
  induction l as [|[k' v'] l IH]; cbn [assoc map fst]; [split; auto|].
  destruct (str_eqb k k') eqn:E.
  - apply str_eqb_eq in E. subst. split; [discriminate|]. intros H. exfalso. apply H. left; auto.
  - rewrite IH. split; intros H; [intros [<-|H']; auto; rewrite str_eqb_refl in E; discriminate|].
    intros H'. apply H. right; auto.
Qed.

(** the two tables, entry by entry *)
Definition entry_ok (e : str * space) : Prop :=
  exists r s, assoc (fst e) built_in_table = Some r /\ assoc r rust_types = Some s /\ same_space (snd e) s.

Lemma builtins_all : Forall entry_ok xsd_builtins.
Proof.
  unfold xsd_builtins. cbn [map].
  repeat (apply Forall_cons; [eexists _, _; split; [vm_compute; reflexivity|split; [vm_compute; reflexivity|]];
    unfold same_space, sub_space, in_range; cbn; split; try (left; reflexivity); try reflexivity; auto; try lia; try (left; lia)|]).
  constructor.
Qed.

Lemma builtins_names : forall n, In n (map fst built_in_table) <-> In n (map fst xsd_builtins).
Proof.
  assert (K : forall a b, forallb (fun x => existsb (str_eqb x) b) a = true -> forall n : str, In n a -> In n b).
  { intros a b H n Hn. rewrite forallb_forall in H. apply H in Hn. apply existsb_str in Hn. auto. }
  intros n. split; apply K; vm_compute; reflexivity.
Qed.

(** Fixed-width integer parsers *)
Lemma num_head_digit s n : num s n -> exists d t, s = d :: t /\ 48 <= d <= 57.
Proof.
  intros H. apply num_iff in H as (H1 & H2 & _). destruct s as [|d t]; [congruence|]. exists d, t. split; auto.
  cbn [forallb] in H2. unfold is_ascii_digit in H2. lia.
Qed.

Lemma parse_signed_iff lo hi s z :
  parse_signed lo hi s = Ok z <-> xsd_integer s z /\ (lo <= z <= hi)%Z.
Proof.
  unfold parse_signed.
  assert (D : forall (neg : bool) ds, match ds with [] => Err | _ :: _ =>
     if forallb is_ascii_digit ds then
       let v := Z.of_N (digits_val ds) in let z := if neg then (- v)%Z else v in
       if (lo <=? z)%Z && (z <=? hi)%Z then Ok z else Err else Err end = Ok z <->
     exists n, num ds n /\ z = (if neg then - Z.of_N n else Z.of_N n)%Z /\ (lo <= z <= hi)%Z).
  { intros neg ds. destruct ds as [|d ds].
    - split; [discriminate|]. intros (n & H & _). apply num_iff in H as (H & _). congruence.
    - cbv zeta. destruct (forallb is_ascii_digit (d :: ds)) eqn:F.
      + destruct ((lo <=? _)%Z && _) eqn:R.
        * split.
          -- intros [= <-]. exists (digits_val (d :: ds)). split; [apply num_iff; repeat split; auto; discriminate|]. split; auto. lia.
          -- intros (n & H & -> & _). apply num_iff in H as (_ & _ & <-). auto.
        * split; [discriminate|]. intros (n & H & -> & B). apply num_iff in H as (_ & _ & <-). lia.
      + split; [discriminate|]. intros (n & H & _). apply num_iff in H as (_ & H & _). congruence. }
  destruct s as [|c s].
  - cbn [strip_prefix]. split; [discriminate|]. intros [H _]. remember [] as e eqn:Ee.
    destruct H as [s n H|s n H|s n H]; [|discriminate|discriminate]. apply num_iff in H as (H & _). congruence.
  - cbn [strip_prefix]. destruct (N.eqb_spec 45 c) as [<-|Nm].
    + rewrite (D true s). split.
      * intros (n & H & -> & B). split; auto. apply (xsd_int_minus s n H).
      * intros [H B]. remember (45 :: s) as e eqn:Ee. destruct H as [s' n H|s' n H|s' n H].
        -- apply num_head_digit in H as (d & t & -> & Hd). injection Ee as -> _. lia.
        -- discriminate.
        -- cbn in Ee. injection Ee as ->. exists n. auto.
    + destruct (N.eqb_spec 43 c) as [<-|Np].
      * rewrite (D false s). split.
        -- intros (n & H & -> & B). split; auto. apply (xsd_int_plus s n H).
        -- intros [H B]. remember (43 :: s) as e eqn:Ee. destruct H as [s' n H|s' n H|s' n H].
           ++ apply num_head_digit in H as (d & t & -> & Hd). injection Ee as -> _. lia.
           ++ cbn in Ee. injection Ee as ->. exists n. auto.
           ++ discriminate.
      * rewrite (D false (c :: s)). split.
        -- intros (n & H & -> & B). split; auto. apply xsd_int_plain. auto.
        -- intros [H B]. remember (c :: s) as e eqn:Ee. destruct H as [s' n H|s' n H|s' n H].
           ++ exists n. auto.
           ++ change (43 :: s' = c :: s) in Ee. injection Ee as Ec _. congruence.
           ++ change (45 :: s' = c :: s) in Ee. injection Ee as Ec _. congruence.
Qed.

Lemma parse_uint_iff max s z : parse_uint max s = Ok z <->
  xsd_integer s z /\ (0 <= z <= Z.of_N max)%Z /\ forall t, s <> 45 :: t.
Proof.
  unfold parse_uint, parse_unsigned. cbv zeta.
  assert (D : forall ds, match match ds with [] => None | _ :: _ => if forallb is_ascii_digit ds then
      if digits_val ds <=? max then Some (digits_val ds) else None else None end with
      | Some n => Ok (Z.of_N n) | None => Err end = Ok z <->
     exists n, num ds n /\ z = Z.of_N n /\ n <= max).
  { intros ds. destruct ds as [|d ds].
    - split; [discriminate|]. intros (n & H & _). apply num_iff in H as (H & _). congruence.
    - destruct (forallb is_ascii_digit (d :: ds)) eqn:F.
      + destruct (digits_val (d :: ds) <=? max) eqn:R.
        * split.
          -- intros [= <-]. exists (digits_val (d :: ds)). split; [apply num_iff; repeat split; auto; discriminate|]. split; auto. lia.
          -- intros (n & H & -> & _). apply num_iff in H as (_ & _ & <-). auto.
        * split; [discriminate|]. intros (n & H & -> & B). apply num_iff in H as (_ & _ & <-). lia.
      + split; [discriminate|]. intros (n & H & _). apply num_iff in H as (_ & H & _). congruence. }
  destruct s as [|c s].
  - cbn [strip_prefix]. split; [discriminate|]. intros [H _]. remember [] as e eqn:Ee.
    destruct H as [s n H|s n H|s n H]; [|discriminate|discriminate]. apply num_iff in H as (H & _). congruence.
  - cbn [strip_prefix]. destruct (N.eqb_spec 43 c) as [<-|Np].
    + rewrite (D s). split.
      * intros (n & H & -> & B). split; [apply (xsd_int_plus s n H)|]. split; [lia|discriminate].
      * intros (H & B & _). remember (43 :: s) as e eqn:Ee. destruct H as [s' n H|s' n H|s' n H].
        -- apply num_head_digit in H as (d & t & -> & Hd). injection Ee as -> _. lia.
        -- cbn in Ee. injection Ee as ->. exists n. repeat split; auto. lia.
        -- discriminate.
    + rewrite (D (c :: s)). split.
      * intros (n & H & -> & B). split; [apply xsd_int_plain; auto|]. split; [lia|].
        intros t [= -> ->]. apply num_head_digit in H as (d & t' & [= <- _] & Hd). lia.
      * intros (H & B & Nt). remember (c :: s) as e eqn:Ee. destruct H as [s' n H|s' n H|s' n H].
        -- exists n. repeat split; auto. lia.
        -- change (43 :: s' = c :: s) in Ee. injection Ee as Ec _. congruence.
        -- exfalso. eapply Nt. reflexivity.
Qed.

Lemma reads_signed lo hi : (lo < 0)%Z -> reads (Some lo) (Some hi) (parse_signed lo hi).
Proof.
  intros L. split; [|split].
  - intros s z H R _. apply parse_signed_iff. unfold in_range in R. split; auto.
  - intros s z H. apply parse_signed_iff in H as [H R]. split; auto.
  - intros s. unfold parse_signed. destruct (match strip_prefix 45 s with Some t => (true, t) | None => _ end) as [neg ds].
    destruct ds; [discriminate|]. destruct (forallb _ _); [|discriminate]. cbv zeta. destruct (_ && _); discriminate.
Qed.

Lemma reads_unsigned max : reads (Some 0%Z) (Some (Z.of_N max)) (parse_uint max).
Proof.
  split; [|split].
  - intros s z H R M. apply parse_uint_iff. unfold in_range in R. split; auto. split; [lia|].
    intros t E. specialize (M (ex_intro _ t E)). exact (Z.lt_irrefl _ M).
  - intros s z H. apply parse_uint_iff in H as (H & R & _). unfold in_range. split; [lia|auto].
  - intros s. unfold parse_uint. destruct (parse_unsigned max s); discriminate.
Qed.

Lemma unsigned_of_xsd s z : xsd_integer s z -> (forall t, s <> 45 :: t) -> exists n, unsigned_lex s n /\ z = Z.of_N n.
Proof.
  intros H. apply xsd_signed in H. destruct H as [s n H|s n H]; intros M; [eauto|]. exfalso. eapply M. reflexivity.
Qed.
Lemma xsd_of_unsigned s n : unsigned_lex s n -> ~ In 95 s -> xsd_integer s (Z.of_N n).
Proof. intros H N0. apply signed_xsd; auto. constructor. auto. Qed.

Lemma reads_big :
  reads None None integer_from_str /\
  reads (Some 0%Z) None (fun s => rmap Z.of_N (non_negative_integer_from_str s)) /\
  reads (Some 1%Z) None (fun s => rmap Z.of_N (positive_integer_from_str s)) /\
  reads None (Some 0%Z) non_positive_integer_from_str /\
  reads None (Some (-1)%Z) negative_integer_from_str.
Proof.
  assert (P : forall (f : str -> res N) lo, (forall s n, f s = Ok n <-> unsigned_lex s n /\ lo <= n) ->
    (forall s, f s <> Panic) -> reads (Some (Z.of_N lo)) None (fun s => rmap Z.of_N (f s))).
  { intros f lo F Np. split; [|split].
    - intros s z H R M. unfold in_range in R. destruct (unsigned_of_xsd s z H) as (n & U & ->).
      + intros t E. specialize (M (ex_intro _ t E)). cbv beta iota in M. lia.
      + rewrite (proj2 (F s n)); auto. split; auto. lia.
    - intros s z H. destruct (f s) as [n| |] eqn:E; cbn in H; try discriminate. injection H as <-.
      apply F in E as [U L]. split; [unfold in_range; lia|]. apply xsd_of_unsigned; auto.
    - intros s H. destruct (f s) eqn:E; cbn in H; try discriminate. eapply Np; eauto. }
  assert (Q : forall (f : str -> res Z) hi, (forall s z, f s = Ok z <-> signed_lex s z /\ match hi with Some h => (z <= h)%Z | None => True end) ->
    (forall s, f s <> Panic) -> reads None hi f).
  { intros f hi F Np. split; [|split; auto].
    - intros s z H R _. apply F. split; [apply xsd_signed; auto|apply R].
    - intros s z H. apply F in H as [H R]. split; [split; auto|]. intros N0. apply signed_xsd; auto. }
  split; [|split; [|split; [|split]]].
  - apply Q; [|apply ints_no_panic]. intros s z. rewrite (bigint_ok s z : integer_from_str s = Ok z <-> _). tauto.
  - apply (P _ 0); [|apply ints_no_panic]. intros s n. rewrite (nn_ok s n). split; [split; auto; lia|tauto].
  - apply (P _ 1); [|apply ints_no_panic]. intros s n. apply p_ok.
  - apply Q; [|apply ints_no_panic]. intros s z. apply np_ok.
  - apply Q; [|apply ints_no_panic]. intros s z. apply neg_ok.
Qed.

Definition int_entry_ok (e : str * space) : Prop :=
  match snd e with
  | SInt lo hi => exists r f, assoc (fst e) built_in_table = Some r /\ assoc r int_parsers = Some f /\ reads lo hi f
  | _ => True
  end.

Lemma int_builtins : Forall int_entry_ok xsd_builtins.
Proof.
  destruct reads_big as (B1 & B2 & B3 & B4 & B5).
  unfold xsd_builtins. cbn [map].
  repeat (apply Forall_cons; [unfold int_entry_ok; cbn [snd fst];
    first [exact I | eexists _, _; split; [vm_compute; reflexivity|]; split; [reflexivity|];
      first [exact B1|exact B2|exact B3|exact B4|exact B5|apply reads_signed; reflexivity
            |apply (reads_unsigned (2 ^ 64 - 1))|apply (reads_unsigned (2 ^ 32 - 1))
            |apply (reads_unsigned (2 ^ 16 - 1))|apply (reads_unsigned (2 ^ 8 - 1))]]|]).
  constructor.
Qed.

(** ** Type modifiers *)
Lemma modify_empty t ms : In MEmpty ms -> modify_type t ms = lit "()".
Proof.
  intros H. unfold modify_type. assert (existsb (modifier_eqb MEmpty) ms = true) as ->; auto.
  apply existsb_exists. exists MEmpty. auto.
Qed.
Lemma not_in_existsb m ms : ~ In m ms -> existsb (modifier_eqb m) ms = false.
Proof.
  intros H. destruct (existsb _ _) eqn:E; auto. apply existsb_exists in E as (x & Hx & Ex).
  exfalso. apply H. destruct m, x; try discriminate; auto.
Qed.
Lemma modify_recursive t ms : ~ In MEmpty ms -> In MRecursive ms -> modify_type t ms = lit "Vec<" ++ t ++ lit ">".
Proof.
  intros H1 H2. unfold modify_type. rewrite not_in_existsb by auto.
  assert (existsb (modifier_eqb MRecursive) ms = true) as ->; auto.
  apply existsb_exists. exists MRecursive. auto.
Qed.
Lemma modify_steps t : modify_type t [] = t /\
  (forall ms, ~ In MEmpty ms -> ~ In MRecursive ms ->
    modify_type t (ms ++ [MNone]) = modify_type t ms /\
    modify_type t (ms ++ [MArray]) = lit "Vec<" ++ modify_type t ms ++ lit ">" /\
    modify_type t (ms ++ [MOption]) = lit "Option<" ++ modify_type t ms ++ lit ">").
Proof.
  split; [reflexivity|]. intros ms H1 H2. unfold modify_type.
  rewrite !existsb_app, !(not_in_existsb _ _ H1), !(not_in_existsb _ _ H2). cbn [orb existsb modifier_eqb].
  rewrite !fold_left_app. repeat split.
Qed.

(** ** Statements about types in terms of the XSD names *)
Lemma built_in_none name p l xsd : qualified name p l ->
  (match_built_in_type name xsd = None <-> ~ (p = ns_prefix xsd /\ In l (map fst xsd_builtins))).
Proof.
  intros Q. split.
  - intros E [-> H]. apply builtins_names in H. apply in_map_iff in H as ([k r] & Ek & H). cbn in Ek. subst k.
    destruct (assoc l built_in_table) eqn:A.
    + assert (match_built_in_type name xsd = Some s) by (apply built_in_iff; eauto). congruence.
    + apply assoc_none in A. apply A. apply in_map_iff. exists (l, r). auto.
  - intros H. destruct (match_built_in_type name xsd) eqn:E; auto. exfalso. apply H.
    apply built_in_iff in E as (l' & Q' & A). destruct (qualified_unique _ _ _ _ _ Q Q') as [-> ->]. split; auto.
    apply builtins_names. apply assoc_in in A. apply in_map_iff. eexists; split; [|exact A]. reflexivity.
Qed.

Lemma format_type_own_ident u name p l xsd tns : qualified name p l -> (exists c, In c l /\ alnum c) ->
  p = None \/ p = ns_prefix tns -> ~ (p = ns_prefix xsd /\ In l (map fst xsd_builtins)) ->
  let r := format_type_name u name xsd tns in
  (rust_ident r \/ r = lit "try") /\ letters r = letters l.
Proof.
  intros Q A O B. cbv zeta. apply (built_in_none name p l xsd Q) in B.
  rewrite (format_type_own u name p l xsd tns Q B O). split.
  - apply sanitize_ident. apply pascal_name_word. apply letters_iff. auto.
  - rewrite sanitize_letters. apply pascal_name_alnum.
Qed.

Lemma format_type_foreign_path u name q l xsd tns : qualified name (Some q) l -> (exists c, In c l /\ alnum c) ->
  ns_prefix tns <> Some q -> ~ (Some q = ns_prefix xsd /\ In l (map fst xsd_builtins)) ->
  exists us T, format_type_name u name xsd tns = us ++ q ++ lit "::" ++ T /\ (us = [] \/ us = [95]) /\
    T <> [] /\ (forall c, In c T -> alnum c) /\ letters T = letters l.
Proof.
  intros Q A O B. apply (built_in_none name (Some q) l xsd Q) in B.
  rewrite (format_type_foreign u name q l xsd tns Q B O). eexists _, (pascal_name u l). split; [reflexivity|].
  destruct (pascal_name_alnum u l) as [P1 P2]. split; [|split; [|split]]; auto.
  - destruct q as [|c q]; auto. destruct (is_numeric u c); auto.
  - intros E. apply letters_iff in A. rewrite <- P2, E in A. apply A. reflexivity.
Qed.

Lemma value_spaces n sp : In (n, sp) xsd_builtins ->
  exists r sp', assoc n built_in_table = Some r /\ assoc r rust_types = Some sp' /\ same_space sp sp'.
Proof. intros H. exact (proj1 (Forall_forall _ _) builtins_all _ H). Qed.
Lemma integer_texts n lo hi : In (n, SInt lo hi) xsd_builtins ->
  exists r f, assoc n built_in_table = Some r /\ assoc r int_parsers = Some f /\ reads lo hi f.
Proof. intros H. exact (proj1 (Forall_forall _ _) int_builtins _ H). Qed.

(** ** Witnesses *)
Lemma name_refuted :
  (forall u, format_name u (lit "Try") = lit "try" /\ In (lit "try") rust_reserved) /\
  (forall u, format_name u (lit "_") = []) /\
  (forall u, u_alphabetic u 233 = true -> u_numeric u 233 = false ->
     format_name u [233; 97; 66] = [233; 97; 98] /\
     format_name u (lit "eaB") = lit "ea_b").
Proof.
  split; [|split].
  - intros u. split; [reflexivity|]. apply in_map_iff. exists "try"%string. split; auto. vm_compute. tauto.
  - reflexivity.
  - intros u H1 H2. split; [|reflexivity]. destruct u as [a n lo up]; cbn in H1, H2.
    vm_compute. repeat (progress (rewrite ?H1, ?H2); vm_compute). reflexivity.
Qed.
Definition w_xs : option namespace := Some {| ns_name := Some (lit "xs"); ns_uri := lit "http://www.w3.org/2001/XMLSchema" |}.
Definition w_tt : option namespace := Some {| ns_name := Some (lit "tt"); ns_uri := lit "http://tt" |}.
Lemma type_refuted u :
  format_type_name u (lit "a:0fst") w_xs w_tt = lit "a::0Fst" /\
  format_type_name u (lit "a:self") w_xs w_tt = lit "a::Self" /\
  format_type_name u (lit "my-ns:t") w_xs w_tt = lit "my-ns::T" /\
  format_type_name u (lit "type:t") w_xs w_tt = lit "type::T".
Proof. repeat split. Qed.
Lemma literal_refuted :
  bool_from_str (lit "1") = Err /\ bool_from_str (lit "0") = Err /\
  (forall max, parse_uint max (lit "-0") = Err) /\
  (forall u, format_type_name u (lit "xs:anyType") w_xs w_tt = lit "xs::AnyType").
Proof. repeat split. Qed.
Lemma distinct_refuted :
  (forall u, format_name u (lit "fooBar") = format_name u (lit "foo-bar") /\
             format_name u (lit "a1") = format_name u (lit "a_1")) /\
  (forall u xsd tns, match_built_in_type (lit "FooBar") xsd = None ->
     match_built_in_type (lit "foo_bar") xsd = None ->
     format_type_name u (lit "FooBar") xsd tns = format_type_name u (lit "foo_bar") xsd tns).
Proof.
  split; [repeat split|]. intros u xsd tns H1 H2. unfold format_type_name. rewrite H1, H2.
  unfold default_format_type. cbn [split_name]. reflexivity.
Qed.
