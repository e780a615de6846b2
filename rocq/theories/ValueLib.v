(** The text and integer types: their values after XML Schema Part 2, and the Rust types that
    stand for them. *)
From Coq Require Import Arith NArith ZArith Bool Ascii String List Lia.
From Verif Require Import Str StrFacts SpecLex DateProofs DurProofs TzProofs SpecNames SpecBuiltin SpecSerde Ints IntsProofs Prim Xml Names NamesProofs Entity SpecScope SpecValue ValueProofs.
Import ListNotations.
Local Open Scope string_scope.
Local Open Scope list_scope.
Local Open Scope N_scope.
Arguments lit : simpl never.

Inductive atom := ANumber (z : Z) | AText (s : str).
Section Library.
(** Which texts are of which text type. *)
Context (texts : str -> str -> Prop).

Definition basic_lexical (l s : str) (a : atom) : Prop :=
  match a with
  | ANumber z => exists lo hi, In (l, SInt lo hi) xsd_builtins /\ xsd_integer s z /\ in_range lo hi z
  | AText t => In (l, SText) xsd_builtins /\ texts l s /\ t = s
  end.
(** XML Schema orders numbers, not texts; the length of a text is its number of characters. *)
Definition basic_order (a b : atom) : option comparison :=
  match a, b with ANumber x, ANumber y => Some (Z.compare x y) | _, _ => None end.
Definition basic_size (a : atom) : N := match a with AText s => N.of_nat (List.length s) | ANumber _ => 0 end.

(** String, the fixed-width integers (core) and the integers of xsd-types (Ints.v). *)
Definition rust_read (t : string) (s : str) : option atom :=
  if String.eqb t "String" then Some (AText s)
  else match assoc (lit t) int_parsers with
       | Some f => match f s with Ok z => Some (ANumber z) | _ => None end
       | None => None
       end.
Definition rust_show (_ : string) (a : atom) : str := match a with ANumber z => bigint_display z | AText s => s end.
Definition rust_cmp (text_cmp : str -> str -> option comparison) (a b : atom) : option comparison :=
  match a, b with ANumber x, ANumber y => Some (Z.compare x y) | AText s, AText t => text_cmp s t | _, _ => None end.
Definition rust_len (a : atom) : N := match a with AText s => N.of_nat (byte_len s) | ANumber _ => 0 end.

Lemma basic_cmp text_cmp a b c : basic_order a b = Some c -> rust_cmp text_cmp a b = Some c.
Proof. destruct a, b; cbn; auto; discriminate. Qed.

Definition space_eqb (a b : space) : bool :=
  match a, b with
  | SInt l h, SInt l' h' => match l, l' with Some x, Some y => Z.eqb x y | None, None => true | _, _ => false end && match h, h' with Some x, Some y => Z.eqb x y | None, None => true | _, _ => false end
  | SText, SText => true
  | _, _ => false
  end.
Lemma one_space l sp sp' : In (l, sp) xsd_builtins -> In (l, sp') xsd_builtins -> sp = sp'.
Proof.
  intros I J. assert (N : NoDup (map fst xsd_builtins)).
  { assert (X : forall (L : list str), (fix nd l := match l with [] => true | x :: r => negb (existsb (str_eqb x) r) && nd r end) L = true -> NoDup L).
    { induction L as [|x L IH]; intros E; [constructor|]. apply andb_true_iff in E as [E1 E2]. constructor; auto. intros K. apply negb_true_iff in E1. assert (Y : existsb (str_eqb x) L = true) by (apply existsb_exists; exists x; split; auto; apply str_eqb_refl). congruence. }
    apply X. vm_compute. reflexivity. }
  revert I J N. generalize xsd_builtins. clear. intros L. induction L as [|[k v] L IH]; intros I J N; [destruct I|]. cbn in N. inversion N as [|? ? Nk N']; subst.
  cbn [In] in I, J. destruct I as [Ea|Ia].
  - destruct J as [Eb|Jb]; [congruence|]. injection Ea as -> ->. exfalso. apply Nk, in_map_iff. exists (l, sp'). auto.
  - destruct J as [Eb|Jb]; [injection Eb as -> ->; exfalso; apply Nk, in_map_iff; exists (l, sp); auto|auto].
Qed.
Lemma same_low lo hi lo' hi' z : in_range lo hi z -> (forall z, in_range lo hi z -> in_range lo' hi' z) -> (forall z, in_range lo' hi' z -> in_range lo hi z) -> lo = lo'.
Proof.
  intros Hz F G. assert (Hz' := F z Hz). unfold in_range in *. destruct lo as [a|], lo' as [b|]; auto.
  - f_equal. assert (X := F a). assert (Y := G b). destruct hi, hi'; lia.
  - exfalso. assert (Y := G (Z.min z a - 1)%Z). destruct hi, hi'; lia.
  - exfalso. assert (Y := F (Z.min z b - 1)%Z). destruct hi, hi'; lia.
Qed.
Lemma same_high lo hi lo' hi' z : in_range lo hi z -> (forall z, in_range lo hi z -> in_range lo' hi' z) -> (forall z, in_range lo' hi' z -> in_range lo hi z) -> hi = hi'.
Proof.
  intros Hz F G. assert (Hz' := F z Hz). unfold in_range in *. destruct hi as [a|], hi' as [b|]; auto.
  - f_equal. assert (X := F a). assert (Y := G b). destruct lo, lo'; lia.
  - exfalso. assert (Y := G (Z.max z a + 1)%Z). destruct lo, lo'; lia.
  - exfalso. assert (Y := F (Z.max z b + 1)%Z). destruct lo, lo'; lia.
Qed.
(** The Rust type of a range of integers is the one of the table. *)
Lemma integer_type l lo hi t z : In (l, SInt lo hi) xsd_builtins -> in_range lo hi z -> library_type l t ->
  assoc l built_in_table = Some (lit t) /\ exists f, assoc (lit t) int_parsers = Some f /\ SpecBuiltin.reads lo hi f.
Proof.
  intros I Hz (sp & sp' & J & _ & It & K & [S1 S2]). assert (sp = SInt lo hi) by (eapply one_space; eauto). subst sp.
  destruct (integer_texts l lo hi I) as (r & f & As & Af & Rf). destruct (value_spaces l _ I) as (r' & sp2 & As' & Ar & [T1 T2]). assert (r' = r) by congruence. subst r'.
  assert (Ends : forall x, sub_space (SInt lo hi) x -> (sub_space x (SInt lo hi) \/ SInt lo hi = SFloat 24 128 \/ SInt lo hi = SBytes) -> x = SInt lo hi).
  { intros x A [B|[B|B]]; try discriminate. destruct x as [| | | |lo' hi'| | | | | | | | | | | |]; try discriminate. cbn in A, B. rewrite (same_low lo hi lo' hi' z), (same_high lo hi lo' hi' z); auto. }
  apply Ends in S1; auto. apply Ends in T1; auto. subst. apply assoc_in in Ar.
  assert (U : lit t = r).
  { assert (X : forallb (fun x => forallb (fun y => str_eqb (fst x) (fst y) || negb (match snd x with SInt _ _ => space_eqb (snd x) (snd y) | _ => false end)) rust_types) rust_types = true) by (vm_compute; reflexivity).
    rewrite forallb_forall in X. specialize (X _ K). rewrite forallb_forall in X. specialize (X _ Ar). cbn [fst snd] in X. apply orb_true_iff in X as [X|X]; [apply str_eqb_eq in X; auto|].
    exfalso. apply negb_true_iff in X. destruct lo, hi; cbn in X; rewrite ?Z.eqb_refl in X; discriminate. }
  rewrite U. eauto.
Qed.
Lemma text_type l t : In (l, SText) xsd_builtins -> library_type l t -> t = "String".
Proof.
  intros I (sp & sp' & J & _ & It & K & [S1 S2]). assert (sp = SText) by (eapply one_space; eauto). subst sp. cbn in S1. subst sp'.
  assert (X : forallb (fun t => String.eqb t "String" || negb (existsb (fun y => str_eqb (fst y) (lit t) && match snd y with SText => true | _ => false end) rust_types)) library_types = true) by (vm_compute; reflexivity).
  rewrite forallb_forall in X. specialize (X t It). apply orb_true_iff in X as [X|X]; [apply String.eqb_eq in X; auto|]. exfalso. apply negb_true_iff in X.
  assert (Y : existsb (fun y => str_eqb (fst y) (lit t) && match snd y with SText => true | _ => false end) rust_types = true) by (apply existsb_exists; exists (lit t, SText); split; auto; cbn; rewrite str_eqb_refl; auto). congruence.
Qed.
Lemma integer_solid s z : xsd_integer s z -> solid s.
Proof.
  assert (D : forall s n, num s n -> s <> [] /\ forall c, In c s -> is_whitespace c = false).
  { intros s0 n X. apply num_iff in X as (N0 & F & _). split; auto. intros c I. rewrite forallb_forall in F. apply F in I. unfold is_whitespace, is_ascii_digit in *. lia. }
  intros [s0 n X|s0 n X|s0 n X]; destruct (D _ _ X) as [N0 F]; (split; [|]); auto; try discriminate; intros c [<-|I]; auto; reflexivity.
Qed.

(** The types whose every text is read: texts, and integers other than the unsigned ones (for
    which Rust does not read "-0"). *)
Definition basics : list string :=
  ["integer"; "nonPositiveInteger"; "negativeInteger"; "long"; "int"; "short"; "byte"; "positiveInteger";
   "string"; "normalizedString"; "token"; "language"; "NMTOKEN"; "Name"; "NCName"; "ID"; "IDREF"; "ENTITY"; "anyURI"; "QName"; "NOTATION"; "anySimpleType"].
Notation complete := (complete atom basic_lexical rust_read rust_show).
Notation exact := (exact atom basic_lexical rust_read).
Lemma integer_not_string t f : assoc (lit t) int_parsers = Some f -> String.eqb t "String" = false.
Proof. intros A. destruct (String.eqb_spec t "String") as [->|]; auto. vm_compute in A. discriminate. Qed.
Lemma basic_complete l : In l basics -> complete (lit l).
Proof.
  intros I. split.
  - assert (X : forallb (fun l => existsb (fun x => str_eqb (fst x) (lit l) && existsb (fun t => existsb (fun y => str_eqb (fst y) (lit t) && space_eqb (snd x) (snd y)) rust_types) library_types) xsd_builtins) basics = true) by (vm_compute; reflexivity).
    rewrite forallb_forall in X. specialize (X l I). apply existsb_exists in X as ([k sp] & J & X). cbn [fst snd] in X. apply andb_true_iff in X as [E X]. apply str_eqb_eq in E. subst k.
    apply existsb_exists in X as (t & It & X). apply existsb_exists in X as ([k sp'] & K & X). cbn [fst snd] in X. apply andb_true_iff in X as [E X]. apply str_eqb_eq in E. subst k.
    assert (sp = sp'). { destruct sp as [| | | |lo hi| | | | | | | | | | | |], sp' as [| | | |lo' hi'| | | | | | | | | | | |]; try discriminate; auto. cbn in X. apply andb_true_iff in X as [X1 X2]. f_equal; [destruct lo, lo'|destruct hi, hi']; try discriminate; auto; f_equal; lia. }
    subst sp'. exists t, sp, sp. split; auto. split; [intros ->; discriminate|]. split; auto. split; auto. assert (R : sub_space sp sp) by (destruct sp; cbn; auto; lia). split; auto.
  - intros t s [z|v] Lt; cbn [basic_lexical].
    + intros (lo & hi & J & Xz & Rz). destruct (integer_type _ _ _ _ _ J Rz Lt) as (_ & f & Af & Rd & _). cbn [rust_show]. split; [|split].
      * unfold rust_read. rewrite (integer_not_string _ _ Af), Af, (Rd s z); auto. intros (t0 & ->). destruct lo as [a|]; auto.
        assert (Y : forallb (fun l => forallb (fun x => negb (str_eqb (fst x) (lit l)) || match snd x with SInt (Some a) _ => (a <? 0)%Z || (0 <? a)%Z | _ => true end) xsd_builtins) basics = true) by (vm_compute; reflexivity).
        rewrite forallb_forall in Y. specialize (Y l I). rewrite forallb_forall in Y. specialize (Y _ J). cbn [fst snd] in Y. rewrite str_eqb_refl in Y. cbn [negb orb] in Y. apply orb_true_iff in Y as [Y|Y]; [lia|]. exfalso.
        destruct Rz as [Rz _]. remember (45 :: t0) as e eqn:Ee. destruct Xz as [s0 n X|s0 n X|s0 n X]; [|change (43 :: s0 = 45 :: t0) in Ee; discriminate|lia]. apply num_iff in X as (_ & F & _). subst s0. cbn in F. discriminate.
      * exists lo, hi. split; auto. split; auto. apply bigint_display_lex.
      * intros _. eapply integer_solid, bigint_display_lex.
    + intros (J & Tx & ->). rewrite (text_type _ _ J Lt). cbn. auto.
Qed.
Lemma exact_integer l : In l ["long"; "int"; "short"; "byte"] -> exact (lit l).
Proof.
  intros I t s a Lt R.
  assert (X : exists lo hi z, In (lit l, SInt (Some lo) (Some hi)) xsd_builtins /\ in_range (Some lo) (Some hi) z /\ forall r, assoc (lit l) built_in_table = Some r -> assoc r int_parsers = Some (parse_signed lo hi)).
  { cbn [In] in I. repeat (destruct I as [<-|I]; [eexists; eexists; exists 0%Z; split; [vm_compute; tauto|]; split; [split; lia|]; intros r E; vm_compute in E; injection E as <-; reflexivity|]). destruct I. }
  destruct X as (lo & hi & z & J & Hz & P). destruct (integer_type _ _ _ _ _ J Hz Lt) as (As & f & Af & _). unfold rust_read in R. rewrite (integer_not_string _ _ Af), (P _ As) in R.
  destruct (parse_signed lo hi s) as [y| |] eqn:E; try discriminate. injection R as <-. apply parse_signed_iff in E as [X B]. exists (Some lo), (Some hi). split; auto.
Qed.
Lemma exact_string : (forall s, texts (lit "string") s) -> exact (lit "string").
Proof.
  intros A t s a Lt R. assert (I : In (lit "string", SText) xsd_builtins) by (vm_compute; tauto). rewrite (text_type _ _ I Lt) in R. cbn in R. injection R as <-. cbn. auto.
Qed.
Lemma comparable_integer l lo hi : In (l, SInt lo hi) xsd_builtins -> comparable atom basic_lexical basic_order l.
Proof.
  intros I s s' [x|x] [y|y] A B; cbn in *; try discriminate; exfalso; destruct A as [A _] || destruct B as [B _]; try (assert (X := one_space _ _ _ I A); discriminate); destruct B as [B _]; assert (X := one_space _ _ _ I B); discriminate.
Qed.
Lemma one_text_text pattern digits l : In (l, SText) xsd_builtins -> one_text atom basic_lexical basic_order basic_size pattern digits (TBuiltin l).
Proof.
  intros I s s' x ([z|v] & A & ->) ([z'|v'] & B & E); try discriminate; cbn in *.
  - destruct A as (lo & hi & A & _). assert (X := one_space _ _ _ I A). discriminate.
  - destruct A as (_ & _ & ->), B as (_ & _ & ->). congruence.
Qed.
End Library.
