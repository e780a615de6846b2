(** Proofs about values. *)
From Coq Require Import Arith NArith ZArith Bool Ascii String List Lia Permutation.
From Verif Require Import Str StrFacts SpecLex SpecNames SpecBuiltin SpecSerde SerdeProofs Xml Comment CommentProofs Names NamesProofs Entity Parser ParserFacts SpecSchema ParserProofs Link SpecLink LinkProofs Gen SpecRust SpecGen SpecCheck RustFacts GenProofs GenProofs2 SpecDoc DocProofs SpecScope ScopeProofs SpecTraits TraitProofs SpecSize SizeProofs ShapeProofs SpecDistinct DistinctProofs DistinctProofs2 MemberProofs SpecFit SpecWrite FitProofs FitProofs2 SpecValue.
Import ListNotations.
Local Open Scope string_scope.
Local Open Scope list_scope.
Local Open Scope N_scope.
Notation concat := List.concat.
Arguments lit : simpl never.

Fixpoint stype_ind' (Q : stype -> Prop) (b : forall l, Q (TBuiltin l)) (r : forall B fs, Q B -> Q (TRestriction B fs)) (li : forall n E, Q E -> Q (TList n E))
  (un : forall Ts, Forall Q Ts -> Q (TUnion Ts)) (T : stype) : Q T :=
  match T with
  | TBuiltin l => b l
  | TRestriction B fs => r B fs (stype_ind' Q b r li un B)
  | TList n E => li n E (stype_ind' Q b r li un E)
  | TUnion Ts => un Ts ((fix all (l : list stype) : Forall Q l := match l with [] => Forall_nil _ | U :: l' => Forall_cons _ (stype_ind' Q b r li un U) (all l') end) Ts)
  end.

(** ** White space *)
Lemma blank_white c : xml_blank c -> is_whitespace c = true.
Proof. intros [<-|[<-|[<-|[<-|[]]]]]; reflexivity. Qed.
Lemma items_tokens s ts : xml_items s ts -> xml_spaced s -> tokens s ts /\ Forall solid ts.
Proof.
  assert (B : forall w, xml_blanks w -> blanks w) by (intros w X c I; apply blank_white, X; auto).
  assert (S : forall t s, xml_solid t -> xml_spaced s -> incl t s -> solid t).
  { intros t s' [Ne N] X I. split; auto. intros c Ic. destruct (is_whitespace c) eqn:E; auto. destruct (N c Ic). apply X; auto. }
  induction 1 as [w W|w t w' W T W'|w t b rest ts W T Bb Nt X IH]; intros Sp.
  - split; [constructor; auto|constructor].
  - assert (St : solid t) by (eapply S; eauto; intros c I; apply in_or_app; right; apply in_or_app; auto). split; [constructor; auto|constructor; auto].
  - assert (St : solid t) by (eapply S; eauto; intros c I; apply in_or_app; right; apply in_or_app; auto).
    destruct IH as [I1 I2]; [intros c I; apply Sp; do 2 (apply in_or_app; right); right; auto|]. split; [|constructor; auto]. apply tok_more; auto. apply blank_white; auto.
Qed.
Lemma solid_xml t : solid t -> xml_solid t.
Proof. intros [N B]. split; auto. intros c I X. apply blank_white in X. rewrite B in X; [discriminate|auto]. Qed.
Lemma separated_items ts : Forall solid ts -> xml_items (separated [32] ts) ts.
Proof.
  induction 1 as [|t ts St F IH]; [constructor; intros c []|]. destruct ts as [|t' ts].
  - cbn. rewrite <- (app_nil_r t) at 1. apply (xi_last [] t []); [intros c []| |intros c []]. apply solid_xml; auto.
  - change (separated [32] (t :: t' :: ts)) with (t ++ [32] ++ separated [32] (t' :: ts)). apply (xi_more [] t 32); auto; [intros c []|apply solid_xml; auto|left; auto|discriminate].
Qed.
Lemma separated_spaced ts : Forall solid ts -> xml_spaced (separated [32] ts).
Proof.
  assert (B : forall t, solid t -> xml_spaced t) by (intros t [_ N] c I W; rewrite (N c I) in W; discriminate).
  induction 1 as [|t ts St F IH]; [intros c []|]. destruct ts as [|t' ts]; [apply B; auto|].
  change (separated [32] (t :: t' :: ts)) with (t ++ [32] ++ separated [32] (t' :: ts)). intros c I W. apply in_app_or in I as [I|I]; [apply (B t); auto|]. apply in_app_or in I as [[<-|[]]|I]; [left; auto|apply IH; auto].
Qed.

(** ** Facets *)
Lemma facet_of_unique n f g : facet_of n f -> facet_of n g -> f = g.
Proof. intros X Y. apply (facet_of_type _ _ []) in X. apply (facet_of_type _ _ []) in Y. congruence. Qed.
Lemma facets_same l (F : list facet) fs : Forall2 SpecSchema.facet_ok l F -> Forall2 facet_of l fs -> map fa_type F = fs.
Proof. intros X. revert fs. induction X as [|n f l F [Of _] X IH]; intros fs Y; inversion Y; subst; auto. cbn. f_equal; auto. eapply facet_of_unique; eauto. Qed.
Lemma in_enumerations v fs : In v (enumerations fs) <-> In (FEnumeration v) fs.
Proof.
  unfold enumerations. rewrite in_concat. split.
  - intros (l & I & J). apply in_map_iff in I as (f & <- & I). destruct f; cbn in J; try contradiction. destruct J as [<-|[]]. auto.
  - intros I. exists [v]. split; [|left; auto]. apply in_map_iff. exists (FEnumeration v). auto.
Qed.
Lemma enumeration_iff c fs v : Forall2 facet_of (tagged_children facet_names c) fs -> In v (enumerations fs) <-> exists e, In e (tagged_children ["enumeration"] c) /\ has e "value" v.
Proof.
  intros F. rewrite in_enumerations. split.
  - intros I. destruct (Forall2_in_r _ _ _ _ F I) as (e & Ie & Fe). exists e. split; [|apply enum_value; auto]. apply in_tagged. apply in_tagged in Ie as [Ie _]. split; auto.
    exists "enumeration". split; [left; auto|]. apply (facet_enum e _ Fe). eauto.
  - intros (e & Ie & He). apply in_tagged in Ie as [Ie (t & [<-|[]] & Te)]. assert (X : In e (tagged_children facet_names c)) by (apply in_tagged; split; auto; exists "enumeration"; split; [left; auto|auto]).
    destruct (Forall2_in_l _ _ _ _ F X) as (f & If & Ff). destruct (proj2 (facet_enum e f Ff) Te) as (v' & ->). apply enum_value in Ff. unfold has in *. congruence.
Qed.
Lemma enumerated_iff u c fs : Forall2 facet_of (tagged_children facet_names c) fs -> enumerated u fs <-> plain_enumeration u c.
Proof.
  intros F. unfold enumerated, plain_enumeration. split.
  - intros [N Al]. split.
    + destruct (enumerations fs) as [|v l] eqn:E; [congruence|]. assert (I : In v (enumerations fs)) by (rewrite E; left; auto). apply (enumeration_iff c fs v F) in I as (e & I & _). eauto.
    + intros e I. assert (J := I). apply in_tagged in J as [J (t & [<-|[]] & Te)]. assert (X : In e (tagged_children facet_names c)) by (apply in_tagged; split; auto; exists "enumeration"; split; [left; auto|auto]).
      destruct (Forall2_in_l _ _ _ _ F X) as (f & If & Ff). destruct (proj2 (facet_enum e f Ff) Te) as (v & ->). exists v. split; [apply enum_value; auto|]. apply Al. apply in_enumerations; auto.
  - intros [(e & I) Al]. split.
    + destruct (Al e I) as (v & Hv & _). intros E. assert (X : In v (enumerations fs)) by (apply (enumeration_iff c fs v F); eauto). rewrite E in X. destruct X.
    + intros v I2. apply (enumeration_iff c fs v F) in I2 as (e2 & I2 & Hv). destruct (Al e2 I2) as (v' & Hv' & Pv). assert (v' = v) by (unfold has in *; congruence). subst; auto.
Qed.

Section Values.
Context (A : Type) (lexical : str -> str -> A -> Prop) (order : A -> A -> option comparison) (size : A -> N).
Context (pattern : str -> str -> Prop) (digits : facet_type -> A -> Prop).
Context (lib_read : string -> str -> option A) (lib_show : string -> A -> str) (lib_cmp : A -> A -> option comparison) (lib_len : A -> N).
Context (Cmp : forall a b c, order a b = Some c -> lib_cmp a b = Some c).
Notation denotes := (denotes A lexical order size pattern digits).
Notation satisfies := (satisfies A order size pattern digits).
Notation complete := (complete A lexical lib_read lib_show).
Notation run_checks v := (run_checks (rval A) (value_read A lib_read v) (value_cmp A lib_cmp) (value_len A lib_len)).

Lemma satisfies_again D s s' x f : satisfies D s x f -> (forall v, f <> FPattern v) -> satisfies D s' x f.
Proof. destruct f; cbn; auto. intros _ N. destruct (N v); auto. Qed.
Lemma restricted_again B fs s s' x : denotes (TRestriction B fs) s x -> (forall v, ~ In (FPattern v) fs) -> denotes B s' x -> denotes (TRestriction B fs) s' x.
Proof. intros (_ & F & E) N D. split; [auto|]. split; auto. intros f I. eapply satisfies_again; [apply F; auto|]. intros v ->. eapply N; eauto. Qed.

Lemma run_app v ks ks' x : run_checks v (ks ++ ks') x = Accepted <-> run_checks v ks x = Accepted /\ run_checks v ks' x = Accepted.
Proof.
  induction ks as [|k ks IH]; cbn; [tauto|]. destruct (condition _ _ _ _ _ _) as [[]|]; [|exact IH|]; split; try discriminate; intros [X _]; discriminate.
Qed.
Lemma run_nil v ks x : (forall k, In k ks -> k = []) -> run_checks v (concat ks) x = Accepted.
Proof. intros N. assert (concat ks = []) as ->; auto. induction ks as [|k ks IH]; auto. cbn. rewrite (N k (or_introl eq_refl)), IH; auto. intros k' I. apply N. right; auto. Qed.
Lemma run_facets c l t a s fs kss : complete l -> library_type l t ->
  (forall f, In f fs -> measure f -> lib_len a = size a) ->
  Forall2 (facet_checks c) fs kss -> (forall f, In f fs -> satisfies (denotes (TBuiltin l)) s (Atom A a) f) ->
  run_checks (RLib A t a) (concat kss) (RLib A t a) = Accepted.
Proof.
  intros [_ Co] Lt Ln F. induction F as [|f ks fs kss X F IH]; intros Sa; auto. cbn [concat]. apply run_app. split; [|apply IH; intros; first [apply Sa|eapply Ln]; try right; eauto; right; auto].
  assert (Sf := Sa f (or_introl eq_refl)). assert (Lf := Ln f (or_introl eq_refl)). clear IH Sa Ln F.
  assert (Bd : forall v C, bounded_by A order (denotes (TBuiltin l)) v (Atom A a) C -> exists b c, lib_read t v = Some b /\ lib_cmp a b = Some c /\ C c).
  { intros v C (a' & b & c' & [= <-] & (b' & Lx & [= <-]) & Oc & Cc). exists b, c'. split; [apply (Co t v b Lt Lx)|]. auto. }
  inversion X; subst; cbn [satisfies] in Sf; auto; cbn [SpecCheck.run_checks condition ck_cond bound_check length_check value_read option_map value_cmp value_len].
  1-4: destruct (Bd _ _ Sf) as (b & c' & -> & Cc & Cr); cbn [option_map value_cmp]; rewrite Cc; destruct c'; try discriminate; try congruence; reflexivity.
  1-3: destruct Sf as (n' & Cn & Ls); assert (En : n' = n) by (match goal with Y : u32_text _ _ |- _ => destruct Y as [Y _]; eapply count_unique; eauto end); rewrite En in Ls; cbn [length_of] in Ls; rewrite (Lf Logic.I).
  - rewrite Ls, N.compare_refl. reflexivity.
  - destruct (N.compare_spec (size a) n); try reflexivity. lia.
  - destruct (N.compare_spec (size a) n); try reflexivity. lia.
Qed.
Lemma facets_run c l t a s s0 fs kss : complete l -> library_type l t -> exact A lexical lib_read l -> lexical l s0 a ->
  (forall f, In f fs -> measure f -> lib_len a = size a) -> (forall f, In f fs -> checked f /\ (measure f \/ comparable A lexical order l)) ->
  Forall2 (facet_checks c) fs kss -> run_checks (RLib A t a) (concat kss) (RLib A t a) = Accepted ->
  forall f, In f fs -> satisfies (denotes (TBuiltin l)) s (Atom A a) f.
Proof.
  intros Co Lt Ex La Ln Gd F. induction F as [|f ks fs kss X F IH]; intros Ra g Ig; [destruct Ig|]. cbn [concat] in Ra. apply run_app in Ra as [Rf Ra]. destruct Ig as [<-|Ig]; [|apply IH; [intros g' I' M; apply (Ln g'); [right|]; auto|intros g' I'; apply Gd; right; auto|auto|auto]].
  assert (Lf := Ln f (or_introl eq_refl)). assert (Gf := Gd f (or_introl eq_refl)). clear IH Ln Gd F Ra. destruct Gf as [Ch Gf].
  assert (Bd : forall v b, lib_read t v = Some b -> (measure f \/ exists c, order a b = Some c) /\ lexical l v b).
  { intros v b R. assert (Lb := Ex t v b Lt R). split; auto. destruct Gf as [Gf|Gf]; auto. right. specialize (Gf s0 v a b La Lb). destruct (order a b); eauto. congruence. }
  inversion X; subst; try contradiction; cbn [SpecCheck.run_checks condition ck_cond bound_check length_check value_read option_map value_cmp value_len measure] in *.
  1-4: destruct (lib_read t v) as [b|] eqn:R; cbn [option_map value_cmp] in Rf; [|discriminate]; destruct (Bd v b R) as [[[]|(c' & Cc)] Lb]; rewrite (Cmp _ _ _ Cc) in Rf; exists a, b, c'; split; [reflexivity|]; split; [exists b; auto|]; split; [exact Cc|]; destruct c'; cbn in Rf; try discriminate; congruence.
  1-3: match goal with Y : u32_text _ _ |- _ => destruct Y as [Y _] end; exists n; split; auto; cbn [length_of]; rewrite <- (Lf Logic.I).
  - destruct (N.compare_spec (lib_len a) n); cbn in Rf; try discriminate; auto.
  - destruct (N.compare_spec (lib_len a) n); cbn in Rf; try discriminate; lia.
  - destruct (N.compare_spec (lib_len a) n); cbn in Rf; try discriminate; lia.
  - match goal with Y : u32_text _ _ |- _ => destruct Y as [Y _] end. exists 0. split; auto. lia.
Qed.
Lemma unchecked_facets c fs kss : Forall2 (facet_checks c) fs kss -> (forall f, In f fs -> ~ checked f) -> forall k, In k kss -> k = [].
Proof. intros F N k I. destruct (Forall2_in_r _ _ _ _ F I) as (f & If & X). assert (Nf := N f If). inversion X; subst; cbn in Nf; tauto || auto. Qed.
Lemma bound_types c fs kss : Forall2 (facet_checks c) fs kss -> forall k op x tt, In k (concat kss) -> ck_cond k = CBound op x tt -> tt = c.
Proof.
  intros F k op x tt I E. apply in_concat in I as (ks & I & J). destruct (Forall2_in_r _ _ _ _ F I) as (f & If & X).
  inversion X; subst; cbn in J; try contradiction; destruct J as [<-|[]]; cbn in E; try discriminate; injection E; auto.
Qed.
Lemma checked_or fs : (exists f, In f fs /\ checked f) \/ forall f, In f fs -> ~ checked f.
Proof.
  induction fs as [|f fs IH]; [right; intros f []|]. assert (D : checked f \/ ~ checked f) by (destruct f; cbn; tauto). destruct D as [D|D]; [left; exists f; split; [left; auto|auto]|].
  destruct IH as [(g & I & C)|N]; [left; exists g; split; [right; auto|auto]|right]. intros g [<-|I]; auto.
Qed.
(** ** Names stand for one thing, so that a text is read in one way *)
Section Unique.
Context (u : uni) (P : list (list str * item)) (Un : unshadowed P).
Notation from_str := (from_str A u P lib_read).
Notation reads := (reads A u P lib_read).
Lemma names_same path t p i p' i' : names u P path t p i -> names u P path t p' i' -> p = p' /\ i = i'.
Proof. intros [S _] [_ U]. apply U; auto. Qed.
Lemma library_free s path p i : In s library_types -> ~ names u P path (rust u s) p i.
Proof.
  intros I [S _]. destruct Un as [_ B]. assert (I' := I). cbn [library_types In] in I.
  repeat (destruct I as [<-|I]; [vm_compute in S; inversion S as [w p1 r j E J D E2|m w j J D E2]; subst; destruct (B _ _ _ J D) as [X Y];
    first [match type of D with defines _ [TWord ?x] => match goal with I' : In ?s library_types |- _ => apply (X s); [vm_compute; tauto|reflexivity] end end|apply Y, in_or_app; right; left; reflexivity]|]).
  destruct I.
Qed.
Definition token_text (t : token) : str := match t with TWord w => w | _ => [58] end.
Lemma library_same s s' : In s library_types -> In s' library_types -> rust u s = rust u s' -> s = s'.
Proof.
  intros I I' E. assert (X : forallb (fun s => forallb (fun s' => String.eqb s s' || negb (str_eqb (concat (map token_text (rust u s))) (concat (map token_text (rust u s'))))) library_types) library_types = true) by (vm_compute; reflexivity).
  rewrite forallb_forall in X. specialize (X s I). rewrite forallb_forall in X. specialize (X s' I'). rewrite E, str_eqb_refl in X. cbn in X. rewrite orb_false_r in X. apply String.eqb_eq in X. auto.
Qed.
Ltac one := match goal with
  | N : names u P ?path (rust u ?s) _ _, I : In ?s library_types |- _ => destruct (library_free s path _ _ I N)
  | N : names u P ?path ?t _ _, M : names u P ?path ?t _ _ |- _ => destruct (names_same _ _ _ _ _ _ N M) as [? Y]; first [discriminate Y|injection Y; intros; subst; clear M]
  end.
Lemma vector_same c c' : vector u c = vector u c' -> c = c'.
Proof. unfold vector. intros E. apply app_inv_head in E. apply app_inv_tail in E. auto. Qed.
Lemma from_str_unique : forall path t s r, from_str path t s r -> forall r', from_str path t s r' -> r = r'.
Proof.
  fix IH 5. intros path t s r F. destruct F as [path t s I|path t p d m t' s r N F|path t p d a m c s r N D V F|path t p d a m c s ts rs N D Tk F]; intros r' F'.
  - remember (rust u t) as tt eqn:Et. destruct F' as [path t' s I'|path t' p d m t'' s r N F|path t' p d a m c s r N D V F|path t' p d a m c s ts rs N D Tk F]; try (rewrite Et in N; destruct (library_free _ _ _ _ I N)).
    apply library_same in Et; auto. subst. auto.
  - destruct F' as [path t s I'|path t p1 d1 m1 t1 s r1 N1 F1|path t p1 d1 a1 m1 c1 s r1 N1 D1 V1 F1|path t p1 d1 a1 m1 c1 s ts1 rs1 N1 D1 Tk1 F1]; [destruct (library_free _ _ _ _ I' N)|..]; destruct (names_same _ _ _ _ _ _ N N1) as [E Y]; try discriminate Y.
    injection Y as _ _ E1. subst. eapply IH; eauto.
  - destruct F' as [path t s I'|path t p1 d1 m1 t1 s r1 N1 F1|path t p1 d1 a1 m1 c1 s r1 N1 D1 V1 F1|path t p1 d1 a1 m1 c1 s ts1 rs1 N1 D1 Tk1 F1]; [destruct (library_free _ _ _ _ I' N)|..]; destruct (names_same _ _ _ _ _ _ N N1) as [E Y]; try discriminate Y.
    + injection Y as _ _ _ E1. subst. f_equal. eapply IH; eauto.
    + injection Y as _ _ _ E1. destruct (V _ E1).
  - destruct F' as [path t s I'|path t p1 d1 m1 t1 s r1 N1 F1|path t p1 d1 a1 m1 c1 s r1 N1 D1 V1 F1|path t p1 d1 a1 m1 c1 s ts1 rs1 N1 D1 Tk1 F1]; [destruct (library_free _ _ _ _ I' N)|..]; destruct (names_same _ _ _ _ _ _ N N1) as [E Y]; try discriminate Y.
    + injection Y as _ _ _ E1. destruct (V1 c). auto.
    + injection Y as _ _ _ E1. apply app_inv_tail in E1. subst c1 p1. apply tokens_split in Tk, Tk1. assert (Ets : ts1 = ts) by congruence. rewrite Ets in F1. do 2 f_equal. f_equal. f_equal.
      clear - IH F F1. revert rs1 F1. induction F as [|t0 r0 ts0 rs0 X F IHF]; intros rs1 F1; inversion F1 as [|? r1 ? rs1' X1 F1']; subst; auto. f_equal; [exact (IH _ _ _ _ X _ X1)|apply IHF; auto].
Qed.
Lemma reads_unique : forall path t s v, reads path t s v -> forall v', reads path t s v' -> v = v'.
Proof.
  induction 1 as [path t s a I R|path t p d m t' s v N Rd IH|path t p d a m c s v N D F|path t p d a m vs pre w post s c v N D E Np Nw Tw F|path t p d a m vs pre w post s N D Nd E Np Tw Vw]; intros v' Rv.
  - remember (rust u t) as tt eqn:Et. destruct Rv as [path t1 s a1 I1 R1|path t1 p1 d1 m1 t1' s v1 N1 Rd1|path t1 p1 d1 a1 m1 c1 s v1 N1 D1 F1|path t1 p1 d1 a1 m1 vs1 pre1 w1 post1 s c1 v1 N1 D1 E1 Np1 Nw1 Tw1 F1|path t1 p1 d1 a1 m1 vs1 pre1 w1 post1 s N1 D1 Nd1 E1 Np1 Tw1 Vw1];
      try (rewrite Et in N1; destruct (library_free _ _ _ _ I N1)). apply library_same in Et; auto. subst. congruence.
  - destruct Rv as [path t1 s a1 I1 R1|path t1 p1 d1 m1 t1' s v1 N1 Rd1|path t1 p1 d1 a1 m1 c1 s v1 N1 D1 F1|path t1 p1 d1 a1 m1 vs1 pre1 w1 post1 s c1 v1 N1 D1 E1 Np1 Nw1 Tw1 F1|path t1 p1 d1 a1 m1 vs1 pre1 w1 post1 s N1 D1 Nd1 E1 Np1 Tw1 Vw1];
      [destruct (library_free _ _ _ _ I1 N)|..]; destruct (names_same _ _ _ _ _ _ N N1) as [Ep Y]; try discriminate Y. injection Y as _ _ Y. subst. auto.
  - destruct Rv as [path t1 s a1 I1 R1|path t1 p1 d1 m1 t1' s v1 N1 Rd1|path t1 p1 d1 a1 m1 c1 s v1 N1 D1 F1|path t1 p1 d1 a1 m1 vs1 pre1 w1 post1 s c1 v1 N1 D1 E1 Np1 Nw1 Tw1 F1|path t1 p1 d1 a1 m1 vs1 pre1 w1 post1 s N1 D1 Nd1 E1 Np1 Tw1 Vw1];
      [destruct (library_free _ _ _ _ I1 N)|..]; destruct (names_same _ _ _ _ _ _ N N1) as [Ep Y]; try discriminate Y. assert (X := from_str_unique _ _ _ _ F _ F1). congruence.
  - destruct Rv as [path t1 s a1 I1 R1|path t1 p1 d1 m1 t1' s v1 N1 Rd1|path t1 p1 d1 a1 m1 c1 s v1 N1 D1 F1|path t1 p1 d1 a1 m1 vs1 pre1 w1 post1 s c1 v1 N1 D1 E1 Np1 Nw1 Tw1 F1|path t1 p1 d1 a1 m1 vs1 pre1 w1 post1 s N1 D1 Nd1 E1 Np1 Tw1 Vw1];
      [destruct (library_free _ _ _ _ I1 N)|..]; destruct (names_same _ _ _ _ _ _ N N1) as [Ep Y]; try discriminate Y.
    + injection Y as _ Ea _ Ev. subst. clear N N1 D D1.
      assert (X : w = w1).
      { revert pre1 Ev Np1. induction pre as [|b pre IH]; intros [|b1 pre1] Ev Np1; cbn in Ev; injection Ev as -> Ev; auto.
        - exfalso. destruct (Np1 b1 (or_introl eq_refl)) as [X|(c' & X1 & X2)]; [contradiction|]. assert (c' = c) by congruence. subst c'. assert (X3 := from_str_unique _ _ _ _ F _ X2). discriminate.
        - exfalso. destruct (Np w1 (or_introl eq_refl)) as [X|(c' & X1 & X2)]; [contradiction|]. assert (c' = c1) by congruence. subst c'. assert (X3 := from_str_unique _ _ _ _ F1 _ X2). discriminate.
        - eapply IH; eauto; intros; [apply Np|apply Np1]; right; auto. }
      subst w1. assert (c1 = c) by congruence. subst c1. assert (X := from_str_unique _ _ _ _ F _ F1). congruence.
    + injection Y as _ Ea _ Ev. subst. contradiction.
  - destruct Rv as [path t1 s a1 I1 R1|path t1 p1 d1 m1 t1' s v1 N1 Rd1|path t1 p1 d1 a1 m1 c1 s v1 N1 D1 F1|path t1 p1 d1 a1 m1 vs1 pre1 w1 post1 s c1 v1 N1 D1 E1 Np1 Nw1 Tw1 F1|path t1 p1 d1 a1 m1 vs1 pre1 w1 post1 s N1 D1 Nd1 E1 Np1 Tw1 Vw1];
      [destruct (library_free _ _ _ _ I1 N)|..]; destruct (names_same _ _ _ _ _ _ N N1) as [Ep Y]; try discriminate Y; auto. injection Y as _ Ea _ Ev. subst. contradiction.
Qed.
End Unique.

Section Final.
Context (u : uni) (schema : node) (f0 f1 : rs_file) (its : list item).
Notation tns := (rf_target_ns f1).
Notation xsn := (rf_xsd_ns f1).
Notation own := (ns_prefix tns).
Notation xsd := (ns_prefix xsn).
Notation tid := (fun q => format_type_name u q xsn tns).
Notation ty := (SpecGen.ty u tid).
Notation items := (items u tns tid (format_name u) (variant_name u tns)).
Notation all_items := (all_items u tns tid (format_name u) (variant_name u tns)).
Notation P := (concat (map (placed []) its)).
Notation clear := (clear_name u own xsd).
Context (O : ok_schema schema) (H : parse_schema u schema [] = Ok f0) (L : link f0 = Ok f1).
Context (Td : forall x, part x schema -> tidy_element x).
Context (Or : forall x, part x schema -> orderly u schema own xsd x).
Context (It : all_items (rf_types f1) its).
Context (Un : unshadowed P) (Uv : forall p m ks ks', In (p, IValidate m ks) P -> In (p, IValidate m ks') P -> ks = ks').
Notation described := (described schema own xsd).
Notation refers := (refers schema own xsd).
Notation from_str := (from_str A u P lib_read).
Notation reads := (reads A u P lib_read).
Notation accepts := (accepts A u P lib_read lib_cmp lib_len).
Notation shown := (shown A lib_show).
Notation strict := (strict A lexical lib_read).
Notation regular_simple := (regular_simple A lexical order size pattern digits u lib_read lib_show).
Notation alike_in_length := (alike_in_length A size lib_len).

Definition still (T : stype) (x : value A) (s : str) : Prop := exists y, denotes T s y /\ ((forall Ts, T <> TUnion Ts) -> y = x).
(** The texts of one value are read as one value. *)
Definition settled (r : str -> rval A -> Prop) (T : stype) : Prop :=
  forall s x, denotes T s x -> (listy T -> xml_spaced s) ->
    exists v, r s v /\ (listy T -> xml_spaced (shown v)) /\ (patternless T -> denotes T (shown v) x) /\
      forall s', denotes T s' x -> (listy T -> xml_spaced s') -> r s' v.
(** In a union: the texts of one value of a type that no type before it has. *)
Definition chosen (r : str -> rval A -> Prop) (Ts : list stype) : Prop :=
  forall pre U post s x, Ts = pre ++ U :: post -> denotes U s x -> (listy U -> xml_spaced s) ->
    exists v, (listy U -> xml_spaced (shown v)) /\ (patternless U -> denotes U (shown v) x) /\
      forall s', denotes U s' x -> (listy U -> xml_spaced s') -> (forall V y, In V pre -> ~ denotes V s' y) -> r s' v.
Definition good (path : list str) (t : list token) (T : stype) : Prop :=
  (parseable u T -> forall s x, denotes T s x -> (listy T -> xml_spaced s) ->
     exists v, from_str path t s (Some v) /\ (solid s -> atomic T -> solid (shown v)) /\ (patternless T -> denotes T (shown v) x)) /\
  (strict T -> forall s, exists r, from_str path t s r /\ (r <> None <-> exists x, denotes T s x)) /\
  (forall s x, denotes T s x -> (listy T -> xml_spaced s) -> alike_in_length T x ->
     exists v, reads path t s v /\ accepts path t v /\ (patternless T -> still T x (shown v))) /\
  (guarded A lexical order lib_read T -> forall s v, (forall B fs x, T = TRestriction B fs -> denotes B s x -> alike_in_length T x) ->
     reads path t s v -> accepts path t v -> exists x, denotes T s x) /\
  (parseable u T -> settled (fun s v => from_str path t s (Some v)) T) /\
  ((forall Ts, T <> TUnion Ts) -> settled (reads path t) T) /\
  (forall Ts, T = TUnion Ts -> chosen (reads path t) Ts).

(** ** Built-in types *)
Lemma builtin_type q l : qualified q xsd l -> builtin_name l -> complete l -> exists t, In t library_types /\ ty q = rust u t /\ library_type l t.
Proof.
  intros Q B [(t0 & sp & sp0 & I & Ns & _) _]. destruct (value_spaces l sp I) as (r & sp' & As & Ar & Sa).
  assert (Nl : ~ In (l, STexts) xsd_builtins).
  { intros J. assert (X : forallb (fun a => forallb (fun b => negb (str_eqb (fst a) (fst b)) || match snd a, snd b with STexts, STexts => true | STexts, _ | _, STexts => false | _, _ => true end) xsd_builtins) xsd_builtins = true) by (vm_compute; reflexivity).
    rewrite forallb_forall in X. specialize (X _ I). rewrite forallb_forall in X. specialize (X _ J). cbn [fst snd] in X. rewrite str_eqb_refl in X. destruct sp; try discriminate. congruence. }
  assert (X : exists t, In t library_types /\ r = lit t).
  { assert (X : forallb (fun p => existsb (fun t => str_eqb (snd p) (lit t)) library_types || existsb (fun b => str_eqb (fst b) (fst p) && match snd b with STexts => true | _ => false end) xsd_builtins) built_in_table = true) by (vm_compute; reflexivity).
    rewrite forallb_forall in X. assert (As' := As). apply assoc_in in As'. apply X in As'. cbn [fst snd] in As'. apply orb_true_iff in As' as [Y|Y].
    - apply existsb_exists in Y as (t & Y1 & Y2). apply str_eqb_eq in Y2. eauto.
    - exfalso. apply existsb_exists in Y as ([k v] & Ik & E). cbn in E. apply andb_true_iff in E as [E1 E2]. apply str_eqb_eq in E1. subst k. destruct v; try discriminate. auto. }
  destruct X as (t & Jt & ->). exists t. split; auto. split.
  - unfold SpecGen.ty, format_type_name. destruct (match_built_in_type q xsn) as [r|] eqn:E.
    + apply built_in_iff in E as (l' & Q' & As'). assert (l' = l) by (eapply (qualified_unique q); eauto). subst l'. rewrite As in As'. injection As' as <-. reflexivity.
    + exfalso. apply (built_in_none q xsd l xsn Q) in E. apply E. auto.
  - exists sp, sp'. split; auto. split; auto. split; auto. split; auto. apply assoc_in; auto.
Qed.
Lemma library_reads t path s v : In t library_types -> reads path (rust u t) s v -> exists a, v = RLib A t a /\ lib_read t s = Some a.
Proof.
  intros I Rv. remember (rust u t) as tt eqn:Et. destruct Rv as [path t1 s a1 I1 R1|path t1 p1 d1 m1 t1' s v1 N1 Rd1|path t1 p1 d1 a1 m1 c1 s v1 N1 D1 F1|path t1 p1 d1 a1 m1 vs1 pre1 w1 post1 s c1 v1 N1 D1 E1 Np1 Nw1 Tw1 F1|path t1 p1 d1 a1 m1 vs1 pre1 w1 post1 s N1 D1 Nd1 E1 Np1 Tw1 Vw1];
    try (rewrite Et in N1; destruct (library_free u P Un _ _ _ _ I N1)). apply library_same in Et; auto. subst. eauto.
Qed.
Lemma tuple_reads path t p d a m c s v : names u P path t p (ITuple d a m c) -> reads path t s v -> from_str path t s (Some v).
Proof.
  intros N Rv. destruct Rv as [path t1 s a1 I1 R1|path t1 p1 d1 m1 t1' s v1 N1 Rd1|path t1 p1 d1 a1 m1 c1 s v1 N1 D1 F1|path t1 p1 d1 a1 m1 vs1 pre1 w1 post1 s c1 v1 N1 D1 E1 Np1 Nw1 Tw1 F1|path t1 p1 d1 a1 m1 vs1 pre1 w1 post1 s N1 D1 Nd1 E1 Np1 Tw1 Vw1];
    [destruct (library_free u P Un _ _ _ _ I1 N)|..]; destruct (names_same _ _ _ _ _ _ _ _ N N1) as [Ep Y]; try discriminate Y. auto.
Qed.
Lemma tuple_accepts path t p d a m c v ks : names u P path t p (ITuple d a m c) -> In (p, IValidate m ks) P -> accepts path t (RNew A v) -> run_checks v ks v = Accepted.
Proof.
  intros N V Ac. remember (RNew A v) as w eqn:Ew. destruct Ac as [path t1 w I|path t1 p1 d1 m1 t1' w N1 Ac|path t1 p1 d1 a1 m1 c1 ks1 w N1 V1 B1 R1|path t1 p1 d1 a1 m1 vs1 w N1 V1];
    [destruct (library_free u P Un _ _ _ _ I N)|..]; destruct (names_same _ _ _ _ _ _ _ _ N N1) as [Ep Y]; try discriminate Y. injection Y as _ _ <- _. subst p1. injection Ew as <-. rewrite (Uv _ _ _ _ V V1). auto.
Qed.
Lemma builtin_good q l path : qualified q xsd l -> builtin_name l -> complete l -> good path (ty q) (TBuiltin l).
Proof.
  intros Q B C. destruct (builtin_type q l Q B C) as (t & I & E & Lt). rewrite E. destruct C as [_ C]. split; [|split; [|split; [|split; [|split]]]].
  - intros _ s x (a & Lx & ->) _. destruct (C t s a Lt Lx) as (R & Sh & So). exists (RLib A t a). assert (F := from_library A u P lib_read path t s I). rewrite R in F. split; [exact F|]. split; [cbn; auto|]. intros _. exists a. auto.
  - intros Ex s. eexists. split; [apply from_library; auto|]. destruct (lib_read t s) as [a|] eqn:R; cbn [option_map]; split; try discriminate; try (intros X; destruct (X eq_refl)).
    + intros _. exists (Atom A a). exists a. split; auto. eapply Ex; eauto.
    + intros (x & a & Lx & ->). destruct (C t s a Lt Lx) as (R' & _). congruence.
  - intros s x (a & Lx & ->) _ _. destruct (C t s a Lt Lx) as (R & Sh & So). exists (RLib A t a). split; [apply reads_library; auto|]. split; [apply accepts_library; auto|]. intros _. exists (Atom A a). split; [exists a; auto|auto].
  - intros Ex s v _ Rd _. destruct (library_reads _ _ _ _ I Rd) as (a & -> & R). exists (Atom A a), a. split; auto. eapply Ex; eauto.
  - intros _ s x (a & Lx & ->) _. exists (RLib A t a). assert (Al : forall s', lexical l s' a -> from_str path (rust u t) s' (Some (RLib A t a))).
    { intros s' L'. destruct (C t s' a Lt L') as (R & _). assert (F := from_library A u P lib_read path t s' I). rewrite R in F. exact F. }
    destruct (C t s a Lt Lx) as (_ & Sh & _). split; [apply Al; auto|]. split; [intros []|]. split; [intros _; exists a; auto|]. intros s' (a' & L' & E') _. injection E' as <-. auto.
  - split; [|intros ? Eu; discriminate Eu]. intros _ s x (a & Lx & ->) _. exists (RLib A t a). destruct (C t s a Lt Lx) as (R & Sh & _). split; [apply reads_library; auto|]. split; [intros []|]. split; [intros _; exists a; auto|].
    intros s' (a' & L' & E') _. injection E' as <-. apply reads_library; auto. apply (C t s' a Lt L').
Qed.

(** ** Tuples *)
Lemma vector_second c : second (vector u c) -> False. Proof. exact (fun x => x). Qed.
Lemma own_second q l : to_own own xsd q l -> clear l -> second (ty q).
Proof. intros To C. rewrite (own_ty u f1 q l To C). destruct (own_token u tns xsn l (clear_own u tns xsn l C)) as (w & ->). exact Logic.I. Qed.
Lemma declared_clear l d : SpecFit.declared schema "simpleType" l d -> part d schema /\ clear l.
Proof. intros (I & T & N). assert (Pd : part d schema) by (eapply child_part; eauto; right; left; auto). split; auto. eapply part_clear; eauto. Qed.
Lemma refers_second q T : refers q T -> regular_simple T -> second (ty q).
Proof.
  intros R Rg. inversion R as [? l Q B|? l d ? To De Ds]; subst.
  - destruct (builtin_type q l Q B Rg) as (t & I & -> & _). apply library_second; auto.
  - eapply own_second; eauto. apply (declared_clear l d De).
Qed.
Lemma not_vector q c : second (ty q) -> ty q <> vector u c.
Proof. intros S E. rewrite E in S. exact S. Qed.

Lemma derives_tuple s : In s ["UtilsTupleIo"; "UtilsDefaultSerde"] -> derives [tuple_derive] s.
Proof. intros I. eexists. split; [left; reflexivity|]. cbn in *. tauto. Qed.
Lemma restriction_good path t p d m q B fs kss :
  names u P path t p (ITuple d [tuple_derive] m (ty q)) -> In (p, IValidate m (concat kss)) P -> Forall2 (facet_checks (ty q)) fs kss ->
  refers q B -> regular_simple B -> parseable u B -> ((exists f, In f fs /\ checked f) -> exists l, B = TBuiltin l) -> ~ enumerated u fs ->
  good p (ty q) B -> good path t (TRestriction B fs).
Proof.
  intros Na Va Fk Re Rg Pb Ch Nn (G1 & G2 & _ & _ & G5 & _). assert (Nv : forall c', ty q <> vector u c') by (intros c'; apply not_vector; eapply refers_second; eauto).
  assert (Di := derives_tuple "UtilsTupleIo" (or_introl eq_refl)).
  assert (Se : settled (fun s v => from_str path t s (Some v)) (TRestriction B fs)).
  { intros s x Dx Sp. destruct (G5 Pb s x (proj1 Dx) Sp) as (v & F & Ls & Sh & Al). exists (RNew A v). split; [exact (from_tuple _ _ _ _ _ _ _ _ _ _ _ _ _ Na Di Nv F)|].
    split; [exact Ls|]. split; [intros [Np Nf]; eapply restricted_again; eauto|]. intros s' D' S'. exact (from_tuple _ _ _ _ _ _ _ _ _ _ _ _ _ Na Di Nv (Al s' (proj1 D') S')). }
  split; [|split; [|split; [|split; [|split]]]].
  - intros _ s x Dx Sp. destruct (G1 Pb s x (proj1 Dx) Sp) as (v & F & So & Sh). exists (RNew A v). split; [exact (from_tuple _ _ _ _ _ _ _ _ _ _ _ _ _ Na Di Nv F)|].
    split; [exact So|]. intros [Np Nf]. eapply restricted_again; eauto.
  - intros [Sb Ef] s. destruct (G2 Sb s) as (r & F & Dr). exists (option_map (RNew A) r). split; [exact (from_tuple _ _ _ _ _ _ _ _ _ _ _ _ _ Na Di Nv F)|]. subst fs. split.
    + intros N. destruct (proj1 Dr) as (x & Dx); [intros ->; apply N; reflexivity|]. exists x. split; auto. split; [intros f []|left; reflexivity].
    + intros (x & Dx & _). destruct r; [discriminate|]. exfalso. apply (proj2 Dr); eauto.
  - intros s x Dx Sp Al.
    assert (X : exists v, from_str p (ty q) s (Some v) /\ (patternless B -> denotes B (shown v) x) /\ run_checks v (concat kss) v = Accepted).
    { destruct (checked_or fs) as [C|C].
      - destruct (Ch C) as (l & ->). inversion Re as [? l' Q Bn|? l' d' ? To De Ds]; subst; [|inversion Ds]. cbn [SpecValue.regular_simple] in Rg. destruct (builtin_type q l Q Bn Rg) as (tt & I & E & Lt).
        assert (Dx' := Dx). destruct Dx as ((a & Lx & ->) & Sa & _). assert (Rg' := Rg). destruct Rg as [_ Co]. destruct (Co tt s a Lt Lx) as (R & Sh & _). exists (RLib A tt a). rewrite E in *. split; [assert (F := from_library A u P lib_read p tt s I); rewrite R in F; exact F|].
        split; [intros _; exists a; auto|]. eapply run_facets; eauto.
      - destruct (G1 Pb s x (proj1 Dx) Sp) as (v & F & _ & Sh). exists v. split; auto. split; auto. apply run_nil. eapply unchecked_facets; eauto. }
    destruct X as (v & F & Sh & Rc). exists (RNew A v). split; [|split].
    + eapply reads_tuple; [exact Na|apply derives_tuple; right; left; auto|]. exact (from_tuple _ _ _ _ _ _ _ _ _ _ _ _ _ Na Di Nv F).
    + eapply accepts_tuple; [exact Na|exact Va|eapply bound_types; eauto|exact Rc].
    + intros [Np Nf]. exists x. split; auto. eapply restricted_again; eauto.
  - intros Gd s v Al Rd Ac. destruct B as [l| | |]; try contradiction. destruct Gd as [Ex Gd]. inversion Re as [? l' Q Bn|? l' d' ? To De Ds]; subst; [|inversion Ds]. cbn [SpecValue.regular_simple] in Rg. destruct (builtin_type q l Q Bn Rg) as (tt & I & E & Lt).
    assert (F := tuple_reads _ _ _ _ _ _ _ _ _ Na Rd). assert (F' := from_library A u P lib_read p tt s I). rewrite <- E in F'. assert (F2 := from_tuple _ _ _ _ _ _ _ _ _ _ _ _ _ Na Di Nv F').
    assert (Eq := from_str_unique u P Un _ _ _ _ F2 _ F). destruct (lib_read tt s) as [a|] eqn:R; [|discriminate]. cbn in Eq. injection Eq as <-. assert (Rc := tuple_accepts _ _ _ _ _ _ _ _ _ Na Va Ac).
    assert (La := Ex tt s a Lt R). exists (Atom A a). split; [exists a; auto|]. split.
    + eapply facets_run; eauto. intros f If Mf. eapply Al; eauto. exists a. auto.
    + left. clear - Gd. unfold enumerations. induction fs as [|f fs IH]; auto. cbn. rewrite IH; [|intros; apply Gd; right; auto]. destruct (Gd f (or_introl eq_refl)) as [C _]. destruct f; cbn in *; tauto || auto.
  - intros _. exact Se.
  - split; [|intros ? Eu; discriminate Eu]. intros _ s x Dx Sp. destruct (Se s x Dx Sp) as (v & F & Ls & Sh & Al). exists v. assert (Dd := derives_tuple "UtilsDefaultSerde" (or_intror (or_introl eq_refl))).
    split; [exact (reads_tuple _ _ _ _ _ _ _ _ _ _ _ _ _ Na Dd F)|]. split; auto. split; auto. intros s' D' S'. exact (reads_tuple _ _ _ _ _ _ _ _ _ _ _ _ _ Na Dd (Al s' D' S')).
Qed.

(** ** Lists *)
Lemma list_good path t p d m q B E named fs kss :
  names u P path t p (ITuple d [tuple_derive] m (vector u (ty q))) -> In (p, IValidate m (concat kss)) P -> Forall2 (facet_checks (vector u (ty q))) fs kss -> (forall f, In f fs -> ~ checked f) ->
  parseable u B -> atomic B -> good p (ty q) B ->
  (forall s x, denotes E s x -> denotes B s x) -> (patternless E -> patternless B /\ forall s s' x, denotes E s x -> denotes B s' x -> denotes E s' x) ->
  good path t (TList named E).
Proof.
  intros Na Va Fk Nc Pb Ab (G1 & _ & _ & _ & G5 & _) EB BE. assert (Di := derives_tuple "UtilsTupleIo" (or_introl eq_refl)).
  assert (Nl : ~ listy B) by (clear - Ab; induction B; cbn in *; tauto).
  assert (X : forall s x, denotes (TList named E) s x -> xml_spaced s -> exists vs, from_str path t s (Some (RNew A (RVec A vs))) /\ (patternless E -> denotes (TList named E) (shown (RNew A (RVec A vs))) x)).
  { intros s x (ts & xs & Xi & F & ->) Sp. destruct (items_tokens s ts Xi Sp) as [Tk So].
    assert (Y : exists vs, Forall2 (from_str p (ty q)) ts (map Some vs) /\ Forall solid (map shown vs) /\ (patternless E -> Forall2 (denotes E) (map shown vs) xs)).
    { clear Xi Tk Sp. revert So. induction F as [|w x ts xs Dw F IH]; intros So; [exists []; split; [constructor|split; [constructor|intros _; constructor]]|]. inversion So; subst.
      destruct IH as (vs & I1 & I2 & I3); auto. destruct (G1 Pb w x (EB _ _ Dw) ltac:(intros Y; contradiction)) as (v & Fv & Sv & Dv).
      exists (v :: vs). cbn [map]. split; [constructor; auto|]. split; [constructor; auto|]. intros Np. constructor; auto. destruct (BE Np) as [Nb Ba]. eapply Ba; eauto. }
    destruct Y as (vs & I1 & I2 & I3). exists vs. split.
    - assert (Ev : found (map Some vs) = vs) by (clear; induction vs as [|v vs IH]; [reflexivity|unfold found in *; cbn; f_equal; exact IH]). assert (X := from_vector A u P lib_read _ _ _ _ _ _ _ _ _ _ Na Di Tk I1). rewrite Ev in X. exact X.
    - intros Np. exists (map shown vs), xs. split; auto. cbn [SpecValue.shown]. apply separated_items. auto. }
  assert (Se : settled (fun s v => from_str path t s (Some v)) (TList named E)).
  { intros s x (ts & xs & Xi & F & ->) Sp. destruct (items_tokens s ts Xi (Sp Logic.I)) as [Tk So].
    assert (Y : exists vs, Forall2 (from_str p (ty q)) ts (map Some vs) /\ Forall solid (map shown vs) /\ (patternless E -> Forall2 (denotes E) (map shown vs) xs) /\
      forall ts', Forall2 (denotes E) ts' xs -> Forall2 (from_str p (ty q)) ts' (map Some vs)).
    { clear Xi Tk Sp. revert So. induction F as [|w x ts xs Dw F IH]; intros So; [exists []; split; [constructor|split; [constructor|split; [intros _; constructor|intros ts' F'; inversion F'; constructor]]]|]. inversion So; subst.
      destruct IH as (vs & I1 & I2 & I3 & I4); auto. destruct (G1 Pb w x (EB _ _ Dw) ltac:(intros Y; contradiction)) as (v & Fv & Sv & Dv).
      destruct (G5 Pb w x (EB _ _ Dw) ltac:(intros Y; contradiction)) as (v' & Fv' & _ & _ & Al). assert (Ev := from_str_unique u P Un _ _ _ _ Fv _ Fv'). injection Ev as <-.
      exists (v :: vs). cbn [map]. split; [constructor; auto|]. split; [constructor; auto|]. split; [intros Np; constructor; auto; destruct (BE Np) as [Nb Ba]; eapply Ba; eauto|].
      intros ts' F'. inversion F' as [|w' ? ts2 ? D' F2]; subst. constructor; [|apply I4; auto]. apply Al; [apply EB; auto|intros Y; contradiction]. }
    destruct Y as (vs & I1 & I2 & I3 & I4). assert (Ev : found (map Some vs) = vs) by (clear; induction vs as [|v vs IH]; [reflexivity|unfold found in *; cbn; f_equal; exact IH]).
    exists (RNew A (RVec A vs)). split; [assert (Z := from_vector A u P lib_read _ _ _ _ _ _ _ _ _ _ Na Di Tk I1); rewrite Ev in Z; exact Z|].
    split; [intros _; cbn [SpecValue.shown]; apply separated_spaced; auto|]. split; [intros Np; exists (map shown vs), xs; split; [cbn [SpecValue.shown]; apply separated_items; auto|auto]|].
    intros s' (ts' & xs' & Xi' & F' & E') S'. injection E' as <-. destruct (items_tokens s' ts' Xi' (S' Logic.I)) as [Tk' _]. assert (Z := from_vector A u P lib_read _ _ _ _ _ _ _ _ _ _ Na Di Tk' (I4 ts' F')). rewrite Ev in Z. exact Z. }
  split; [|split; [|split; [|split; [intros []|split; [intros _; exact Se|]]]]].
  4: { split; [|intros ? Eu; discriminate Eu]. intros _ s x Dx Sp. destruct (Se s x Dx Sp) as (v & F & Ls & Sh & Al). exists v. assert (Dd := derives_tuple "UtilsDefaultSerde" (or_intror (or_introl eq_refl))).
    split; [exact (reads_tuple _ _ _ _ _ _ _ _ _ _ _ _ _ Na Dd F)|]. split; auto. split; auto. intros s' D' S'. exact (reads_tuple _ _ _ _ _ _ _ _ _ _ _ _ _ Na Dd (Al s' D' S')). }
  - intros _ s x Dx Sp. destruct (X s x Dx (Sp Logic.I)) as (vs & F & Sh). exists (RNew A (RVec A vs)). split; auto. split; [intros _ []|auto].
  - intros [].
  - intros s x Dx Sp _. destruct (X s x Dx (Sp Logic.I)) as (vs & F & Sh). exists (RNew A (RVec A vs)). split; [|split].
    + eapply reads_tuple; [exact Na|apply derives_tuple; right; left; auto|exact F].
    + eapply accepts_tuple; [exact Na|exact Va|eapply bound_types; eauto|]. apply run_nil. eapply unchecked_facets; eauto.
    + intros Np. exists x. split; auto.
Qed.

(** ** Unions *)
Lemma union_in Ts s x : denotes (TUnion Ts) s x <-> exists pre U post, Ts = pre ++ U :: post /\ (forall V y, In V pre -> ~ denotes V s y) /\ denotes U s x.
Proof.
  induction Ts as [|U Ts IH]; [cbn; split; [intros []|intros ([|? ?] & ? & ? & E & _); discriminate]|]. change (denotes (TUnion (U :: Ts)) s x) with (denotes U s x \/ (forall y, ~ denotes U s y) /\ denotes (TUnion Ts) s x). rewrite IH. split.
  - intros [D|(N & pre & V & post & -> & Np & D)]; [exists [], U, Ts; split; [auto|split; [intros ? ? []|auto]]|]. exists (U :: pre), V, post. split; auto. split; auto. intros W y [<-|I]; auto.
  - intros ([|V pre] & W & post & E & N & D); injection E as -> ->; [left; auto|right]. split; [intros y; apply N; left; auto|]. exists pre, W, post. split; auto. split; auto. intros ? ? I. apply N. right; auto.
Qed.
Lemma regular_union Ts : regular_simple (TUnion Ts) <-> forall pre U post, Ts = pre ++ U :: post -> regular_simple U /\ parseable u U /\ (post <> [] -> strict U).
Proof.
  induction Ts as [|U Ts IH]; [cbn; split; auto; intros _ [|? ?] ? ? E; discriminate|].
  change (regular_simple (TUnion (U :: Ts))) with (regular_simple U /\ parseable u U /\ (Ts <> [] -> strict U) /\ regular_simple (TUnion Ts)). rewrite IH. split.
  - intros (R & Pa & S & Al) [|V pre] W post E; injection E as -> ->; auto. eapply Al; eauto.
  - intros Al. destruct (Al [] U Ts eq_refl) as (R & Pa & S). split; auto. split; auto. split; auto. intros pre V post ->. apply (Al (U :: pre) V post). reflexivity.
Qed.
Lemma listy_in Ts U : In U Ts -> listy U -> listy (TUnion Ts).
Proof. intros I X. induction Ts as [|V Ts IH]; [destruct I|]. destruct I as [<-|I]; cbn; auto. right. apply (IH I). Qed.
Lemma patternless_in Ts U : In U Ts -> patternless (TUnion Ts) -> patternless U.
Proof. intros I X. induction Ts as [|V Ts IH]; [destruct I|]. destruct X as [X Y]. destruct I as [<-|I]; auto. Qed.
Lemma union_chosen path t p d m vs Ts unk :
  names u P path t p (IEnum d [union_derive] m (vs ++ [unk])) ->
  Forall2 (fun w U => va_name w <> lit "__Unknown__" /\ exists c, va_type w = Some c /\ good p c U) vs Ts -> regular_simple (TUnion Ts) -> chosen (reads path t) Ts.
Proof.
  intros Na F Rg pre U post s x -> Du Sp. rewrite regular_union in Rg. destruct (Rg pre U post eq_refl) as (Ru & Pu & Su).
  apply Forall2_app_inv_r in F as (vp & vr & Fp & Fr & ->). inversion Fr as [|w ? vp' ? (Nw & c & Tw & Gw) Fr' E1 E2]; subst.
  destruct Gw as (_ & _ & _ & _ & G5 & _). destruct (G5 Pu s x Du Sp) as (v & _ & Ls & Sh & Al).
  assert (St : forall V, In V pre -> strict V).
  { intros V I. apply in_split in I as (a & b & ->). destruct (Rg a V (b ++ U :: post)) as (_ & _ & X); [rewrite <- app_assoc; reflexivity|]. apply X. destruct b; discriminate. }
  exists (RCase A v). split; auto. split; auto. intros s' D' S' Np.
  eapply reads_union with (pre := vp) (w := w) (post := vp' ++ [unk]); [exact Na|eexists; split; [left; reflexivity|cbn; auto]|rewrite <- app_assoc; reflexivity| |exact Nw|exact Tw|exact (Al s' D' S')].
  intros w' I. right. destruct (Forall2_in_l _ _ _ _ Fp I) as (V & Iv & _ & c' & Tc & _ & G2 & _). exists c'. split; auto. destruct (G2 (St V Iv) s') as (r & Fr2 & Dr). destruct r as [r|]; auto.
  exfalso. destruct (proj1 Dr) as (y & Dy); [discriminate|]. eapply Np; eauto.
Qed.
Lemma union_good path t p d m vs Ts unk :
  names u P path t p (IEnum d [union_derive] m (vs ++ [unk])) -> In (p, IValidate m []) P ->
  Forall2 (fun w U => va_name w <> lit "__Unknown__" /\ exists c, va_type w = Some c /\ good p c U) vs Ts -> regular_simple (TUnion Ts) -> good path t (TUnion Ts).
Proof.
  intros Na Va F Rg. split; [|split; [|split; [|split; [|split]]]]; [intros []|intros []| |intros []|intros []|split; [intros N; destruct (N Ts eq_refl)|intros ? [= <-]; eapply union_chosen; eauto]]. intros s x Dx Sp _. rewrite regular_union in Rg.
  destruct (proj1 (union_in Ts s x) Dx) as (pre & U & post & -> & Np & Du). destruct (Rg pre U post eq_refl) as (Ru & Pu & Su).
  apply Forall2_app_inv_r in F as (vp & vr & Fp & Fr & ->). inversion Fr as [|w ? vp' ? (Nw & c & Tw & Gw) Fr' E1 E2]; subst. assert (Iu : In U (pre ++ U :: post)) by (apply in_or_app; right; left; auto).
  destruct Gw as (G1 & _). destruct (G1 Pu s x Du) as (v & Fv & _ & Sh); [intros X; apply Sp; eapply listy_in; eauto|].
  assert (St : forall V, In V pre -> strict V).
  { intros V I. apply in_split in I as (a & b & ->). destruct (Rg a V (b ++ U :: post)) as (_ & _ & X); [rewrite <- app_assoc; reflexivity|]. apply X. destruct b; discriminate. }
  exists (RCase A v). split; [|split].
  - eapply reads_union with (pre := vp) (w := w) (post := vp' ++ [unk]); [exact Na|eexists; split; [left; reflexivity|cbn; auto]|rewrite <- app_assoc; reflexivity| |exact Nw|exact Tw|exact Fv].
    intros w' I. right. destruct (Forall2_in_l _ _ _ _ Fp I) as (V & Iv & _ & c' & Tc & _ & G2 & _). exists c'. split; auto. destruct (G2 (St V Iv) s) as (r & Fr2 & Dr). destruct r as [r|]; auto.
    exfalso. destruct (proj1 Dr) as (y & Dy); [discriminate|]. eapply Np; eauto.
  - eapply accepts_enum; eauto.
  - intros Pl. assert (Ds := Sh (patternless_in _ _ Iu Pl)). cbn [SpecValue.shown].
    assert (Y : exists y, denotes (TUnion (pre ++ U :: post)) (shown v) y).
    { assert (Dec : forall V, In V pre -> (exists y, denotes V (shown v) y) \/ forall y, ~ denotes V (shown v) y).
      { intros V I. destruct (Forall2_in_r _ _ _ _ Fp I) as (w' & _ & _ & c' & _ & _ & G2 & _). destruct (G2 (St V I) (shown v)) as (r & _ & Dr). destruct r; [left; apply Dr; discriminate|right]. intros y Dy. apply (proj2 Dr); eauto. }
      clear - Dec Ds. induction pre as [|V pre IH].
      - exists x. apply union_in. exists [], U, post. split; auto.
      - destruct (Dec V (or_introl eq_refl)) as [(y & Dy)|N]; [exists y; left; exact Dy|]. destruct IH as (y & Dy); [intros; apply Dec; right; auto|]. exists y. right. auto. }
    destruct Y as (y & Dy). exists y. split; auto. intros N. destruct (N _ eq_refl).
Qed.

(** ** Enumerations *)
Lemma plain_no_colon v : plain_value u v -> ~ In 58 v.
Proof. intros [_ X] I. destruct (X 58 I) as [E|E]; [|discriminate]. assert (Y : is_alphanumeric u 58 = false) by reflexivity. congruence. Qed.
Lemma value_variant c k s : enum_of_value c k -> plain_value u (ec_value k) -> variant_text (case_variant u tid (variant_name u tns) k) s <-> s = ec_value k.
Proof.
  intros (_ & En & Et & _ & Es & _) Pv. unfold case_variant. rewrite colon_split_eq. assert (Q : split_name (ec_name k) = (None, ec_name k)).
  { pose proof (split_name_qualified (ec_name k)) as Q. destruct (split_name (ec_name k)) as [[q|] l]; destruct Q as [Q1 Q2]; [|subst; auto]. exfalso. apply (plain_no_colon _ Pv). rewrite <- En, Q1. apply in_or_app. right. left. auto. }
  rewrite Q, Es, En. unfold variant_text. cbn [va_attrs va_name]. destruct (str_eqb (ec_value k) (variant_name u tns (ec_value k))) eqn:E.
  - apply str_eqb_eq in E. rewrite <- E. split; [intros [(l & [] & _)|[_ X]]; auto|]. intros ->. right. split; auto.
  - split.
    + intros [(l & [[= <-]|[]] & [[= X]|[]])|[N _]]; auto. exfalso. eapply N; [left; reflexivity|left; reflexivity].
    + intros ->. left. eexists. split; [left; reflexivity|left; reflexivity].
Qed.
Lemma enumeration_good path t p d m c cases B fs unk :
  names u P path t p (IEnum d [choice_derive; AYaserde (ns_args tns)] m (map (case_variant u tid (variant_name u tns)) cases ++ [unk])) -> In (p, IValidate m []) P ->
  Forall2 enum_of_value (tagged_children ["enumeration"] c) cases -> Forall2 facet_of (tagged_children facet_names c) fs -> enumerated u fs -> one_text A lexical order size pattern digits B ->
  good path t (TRestriction B fs).
Proof.
  intros Na Va Fc Ff En Ot. split; [intros N; destruct (N En)|]. split; [intros [_ ->]; destruct En as [X _]; destruct X; reflexivity|].
  assert (Rs : forall s x, denotes (TRestriction B fs) s x -> reads path t s (RUnit A s) /\ accepts path t (RUnit A s)); [|split; [|split; [|split; [intros N; destruct (N En)|]]]].
  2: { intros s x Dx _ _. destruct (Rs s x Dx) as [Rd Ac]. exists (RUnit A s). split; auto. split; auto. intros _. exists x. split; auto. }
  3: { split; [|intros ? Eu; discriminate Eu]. intros _ s x Dx Sp. destruct (Rs s x Dx) as [Rd _]. exists (RUnit A s). split; auto. split; auto. split; auto. intros s' D' _. assert (s' = s) as -> by (eapply Ot; [apply D'|apply Dx]). exact Rd. }
  2: { intros Gd. exfalso. destruct B; try contradiction. destruct Gd as [_ Gd]. destruct En as [X _]. apply X. clear - Gd. unfold enumerations. induction fs as [|f fs IH]; auto. cbn. rewrite IH; [|intros; apply Gd; right; auto]. destruct (Gd f (or_introl eq_refl)) as [C _]. destruct f; cbn in *; tauto || auto. }
  intros s x Dx. destruct Dx as (Db & _ & [X|(v & Iv & Dv)]); [destruct (proj1 En X)|]. assert (s = v) by (eapply Ot; eauto). subst v.
  assert (Pl : forall k, In k cases -> plain_value u (ec_value k) /\ exists c, enum_of_value c k).
  { intros k I. destruct (Forall2_in_r _ _ _ _ Fc I) as (e & Ie & Ek). split; [|eauto]. apply En. apply (enumeration_iff c fs); auto. exists e. split; auto. apply Ek. }
  assert (Ex : exists k, In k cases /\ ec_value k = s).
  { apply (enumeration_iff c fs s Ff) in Iv as (e & Ie & He). destruct (Forall2_in_l _ _ _ _ Fc Ie) as (k & Ik & Ek & _). exists k. split; auto. unfold has in *. congruence. }
  assert (Sp : exists pre k post, cases = pre ++ k :: post /\ (forall k', In k' pre -> ec_value k' <> s) /\ ec_value k = s).
  { clear - Ex. induction cases as [|k l IH]; destruct Ex as (k0 & I & E); [destruct I|]. destruct (str_eqb (ec_value k) s) eqn:Q.
    - apply str_eqb_eq in Q. exists [], k, l. split; auto.
    - assert (Nk : ec_value k <> s) by (intros X; rewrite X, str_eqb_refl in Q; discriminate). destruct I as [->|I]; [contradiction|]. destruct IH as (pre & k' & post & -> & N & Ek); eauto. exists (k :: pre), k', post. split; auto. split; auto. intros k2 [<-|I2]; auto. }
  destruct Sp as (pre & k & post & -> & Np & Ek). split.
  - eapply reads_unit with (pre := map (case_variant u tid (variant_name u tns)) pre) (w := case_variant u tid (variant_name u tns) k) (post := map (case_variant u tid (variant_name u tns)) post ++ [unk]);
      [exact Na|eexists; split; [left; reflexivity|cbn; tauto]|intros (ds & [[= <-]|[X|[]]] & J); [cbn in J; repeat (destruct J as [J|J]; [discriminate|]); destruct J|discriminate]|rewrite map_app, <- app_assoc; reflexivity| | |].
    + intros w' I. apply in_map_iff in I as (k' & <- & I). destruct (Pl k') as [Pk (e & Ee)]; [apply in_or_app; auto|]. rewrite (value_variant e k' s Ee Pk). intros X. apply (Np k' I). auto.
    + destruct (Pl k) as [_ (e & Ee)]; [apply in_or_app; right; left; auto|]. destruct Ee as (_ & _ & Et & _). unfold case_variant. destruct (colon_split (ec_name k)). cbn. rewrite Et. reflexivity.
    + destruct (Pl k) as [Pk (e & Ee)]; [apply in_or_app; right; left; auto|]. apply (value_variant e k s Ee Pk). auto.
  - eapply accepts_enum; eauto.
Qed.

(** ** Types of a document *)
Definition good_ref (T : stype) : Prop := forall q path, refers q T -> good path (ty q) T.
Definition good_node (T : stype) : Prop := forall d pn anc e nm path t p i r, described d T -> part d schema -> tag "simpleType" d -> parse_node u d (pn :: anc) = Ok e ->
  items (set_name nm e) (i :: r) -> incl (concat (map (placed p) (i :: r))) P -> names u P path t p i -> good path t T.

Lemma names_at w i p : In (p, i) P -> defines i [TWord w] -> names u P p [TWord w] p i.
Proof.
  intros I D. split; [eapply seen_above; eauto; rewrite app_nil_r; reflexivity|]. intros p' i' S. inversion S as [w' p2 r j E I' D'|m w' j I' D']; subst.
  destruct (proj1 Un p' r [TWord w] i' i I' I D' D) as [-> ->]. rewrite app_nil_r. auto.
Qed.
Lemma body d c pn anc e : tag "simpleType" d -> only d c -> parse_node u d (pn :: anc) = Ok e ->
  exists e0, parse_node u c (d :: pn :: anc) = Ok e0 /\ forall nm, exists k, set_name nm e = set_comment k (set_name nm e0).
Proof.
  intros T On Hp. destruct (simple_type_ok _ _ _ _ _ T Hp) as (c' & e0 & Fc & Hc & R). rewrite (only_final _ _ On) in Fc. destruct Fc as (l & E). assert (c' = c) by (destruct l as [|? [|]]; [injection E; auto|discriminate|discriminate]). subst c'.
  exists e0. split; auto. intros nm. exists (get_documentation d). destruct R as [[_ (nm' & _ & ->)]|(_ & _ & ->)]; destruct e0; reflexivity.
Qed.
Lemma tuple_items t l p : items (ETuple t) l -> incl (concat (map (placed p) l)) P ->
  exists d r kss, l = ITuple d [tuple_derive] (ty (tu_name t)) (modified u (ty (tu_type t)) (tu_mods t)) :: r /\ In (p, IValidate (ty (tu_name t)) (concat kss)) P /\
    Forall2 (facet_checks (modified u (ty (tu_type t)) (tu_mods t))) (map fa_type (tu_facets t)) kss.
Proof.
  intros X Ic. inversion X as [|t' inner kss Ai Fk| | | |]; subst. eexists. eexists. exists kss. split; [reflexivity|]. split; auto. apply Ic. cbn [app]. rewrite map_cons, map_app. cbn [concat]. rewrite concat_app.
  apply in_or_app. right. apply in_or_app. right. left. reflexivity.
Qed.
Lemma enum_items en l p : items (EEnum en) l -> incl (concat (map (placed p) l)) P ->
  exists d r inner unk, l = IEnum d (match en_source en with OfUnion => [union_derive] | _ => [choice_derive; AYaserde (ns_args tns)] end) (ty (en_name en)) (map (case_variant u tid (variant_name u tns)) (en_cases en) ++ [unk]) :: r /\
    In (p, IValidate (ty (en_name en)) []) P /\ all_items (en_subtypes en) inner /\ incl (concat (map (placed p) inner)) P.
Proof.
  intros X Ic. inversion X as [| |en' inner Ai| | |]; subst. eexists. eexists. exists inner. eexists. split; [reflexivity|]. split; [apply Ic; cbn; auto|]. split; auto.
  intros y I. apply Ic. cbn. right. right. right. exact I.
Qed.
Lemma particle_child d c : only d c -> part c d.
Proof. intros On. eapply ScopeProofs.particle_part; [|constructor]. rewrite (only_final _ _ On). left. auto. Qed.

Lemma only_first n c c' : only n c -> first_child n "simpleType" c' -> c' = c.
Proof.
  intros On (a & b & E & T & _). assert (X : In c' (particles n)).
  { apply in_particles. split; [rewrite E; apply in_or_app; right; left; auto|]. split; [destruct c'; auto; discriminate T|eapply tag_neq; [|exact T]; discriminate]. }
  rewrite (only_final _ _ On) in X. destruct X as [->|[]]. auto.
Qed.
Lemma restriction_node B fs : regular_simple (TRestriction B fs) -> (regular_simple B -> good_ref B) -> good_node (TRestriction B fs).
Proof.
  intros Rg Gb d pn anc e nm path t p i r De Pd Td' Hp Hi Ic Na. inversion De as [? c q ? ? On Tc Hb Re Ff| | |]; subst. destruct (body _ _ _ _ _ Td' On Hp) as (e0 & Hc & Hn). destruct (Hn nm) as (k & En). rewrite En in Hi.
  destruct (restriction_ok _ _ _ _ _ Tc Td' Hc) as (b & Hb' & R1 & R2). assert (b = q) by (unfold has in *; congruence). subst b. destruct Rg as [[Ee Ot]|(Ne & Rb & Pb & Ch)].
  - destruct R1 as (pr & en & -> & _ & _ & _ & Es & _ & Fc); [apply (enumerated_iff u c fs Ff); auto|]. cbn [set_name set_comment] in Hi. destruct (enum_items _ _ _ Hi Ic) as (doc & r' & inner & unk & Ei & Va & _). injection Ei as -> ->. cbn in Na, Va. rewrite Es in Na.
    eapply enumeration_good; eauto.
  - destruct R2 as (tu & -> & Et & Em & _ & Fk); [intros X; apply Ne; apply (enumerated_iff u c fs Ff); auto|]. cbn [set_name set_comment] in Hi. destruct (tuple_items _ _ _ Hi Ic) as (doc & r' & kss & Ei & Va & Fc). injection Ei as -> ->. cbn in Na, Va, Fc.
    rewrite Et, Em in *. rewrite (facets_same _ _ _ Fk Ff) in Fc. change (modified u (ty q) []) with (ty q) in *. eapply restriction_good; eauto. apply Gb; auto.
Qed.
Lemma list_node named E : regular_simple (TList named E) -> good_ref E -> (forall B fs, E = TRestriction B fs -> regular_simple B -> good_ref B) -> good_node (TList named E).
Proof.
  intros (Rg & Pe & Ae & Nn) Ge Gb d pn anc e nm path t p i r De Pd Td' Hp Hi Ic Na. inversion De as [|? c q ? On Tc Hq Re|? c di ? On Tc Ab On2 Ti Di|]; subst; destruct (body _ _ _ _ _ Td' On Hp) as (e0 & Hc & Hn); destruct (Hn nm) as (k & En); rewrite En in Hi;
    destruct (list_ok _ _ _ _ Tc Hc) as (tu & -> & L1 & L2).
  - destruct (L1 q Hq) as (Et & Em & _ & Ef). cbn [set_name set_comment] in Hi. destruct (tuple_items _ _ _ Hi Ic) as (doc & r' & kss & Ei & Va & Fc). injection Ei as -> ->. cbn in Na, Va, Fc. rewrite Et, Em, Ef in *. change (modified u (ty q) [MArray]) with (vector u (ty q)) in *.
    eapply (list_good _ _ _ _ _ q E E); eauto.
  - destruct (Nn eq_refl) as (B & fs & -> & Nf). destruct (L2 Ab) as (ci & ec & Fi & Hi2 & Alt).
    assert (ci = di) by (eapply only_first; eauto). subst ci.
    inversion Di as [? c2 q ? ? On3 Tc2 Hb Re Ff| | |]; subst. destruct (body _ _ _ _ _ Ti On3 Hi2) as (e2 & Hc2 & Hn2).
    destruct (restriction_ok _ _ _ _ _ Tc2 Ti Hc2) as (b & Hb' & _ & R2). assert (b = q) by (unfold has in *; congruence). subst b.
    destruct R2 as (t2 & -> & Et2 & Em2 & _ & Fk2); [intros X; apply Pe; apply (enumerated_iff u c2 fs Ff); auto|].
    destruct (Hn2 []) as (k2 & E2). destruct Alt as [(en & -> & _)|(t0 & -> & T1 & T2 & _ & T4)]; [discriminate|]. cbn [set_name set_comment] in E2. injection E2 as _ A1 _ A2 A3.
    cbn [set_name set_comment] in Hi. destruct (tuple_items _ _ _ Hi Ic) as (doc & r' & kss & Ei & Va & Fc). injection Ei as -> ->. cbn in Na, Va, Fc. rewrite T1, T2, T4, A1, A2, A3, Em2, Et2 in *. cbn [app] in *.
    rewrite (facets_same _ _ _ Fk2 Ff) in Fc. change (modified u (ty q) [MArray]) with (vector u (ty q)) in *. destruct Rg as [[X _]|(Ne & Rb & Pb & _)]; [contradiction|].
    eapply (list_good _ _ _ _ _ q B (TRestriction B fs)); eauto; [eapply Gb; eauto|intros s x Dx; apply Dx|]. intros [Np Npat]. split; auto. intros s s' x Dx Db. eapply restricted_again; eauto.
Qed.
Lemma union_node Ts : regular_simple (TUnion Ts) -> (forall T, In T Ts -> good_ref T /\ good_node T) -> good_node (TUnion Ts).
Proof.
  intros Rg G d pn anc e nm path t p i r De Pd Td' Hp Hi Ic Na. inversion De as [| | |? c qs Ts' Us On Tc Mt Fr Fd]; subst. destruct (body _ _ _ _ _ Td' On Hp) as (e0 & Hc & Hn). destruct (Hn nm) as (k & En). rewrite En in Hi.
  assert (Pc : part c schema) by (eapply part_trans; [apply particle_child; eauto|auto]).
  destruct (union_ok _ _ _ _ Tc Hc) as (fs & _ & Un1 & _). destruct (Or c Pc) as (_ & _ & _ & Nu & _). destruct (Un1 (Nu Tc)) as (en & -> & _ & Es & _ & _ & ts & K1 & K2 & Mt' & Fk & Ec & Ne). clear Un1 Nu.
  assert (ts = qs) by (unfold member_tokens in *; destruct (attribute c (lit "memberTypes")); [eapply blank_tokens_unique; eauto|congruence]). subst ts.
  cbn [set_name set_comment] in Hi. destruct (enum_items _ _ _ Hi Ic) as (doc & r' & inner & unk & Ei & Va & Ai & Ii). injection Ei as -> ->. cbn in Na, Va, Ai. rewrite Es, Ec in *.
  eapply union_good; [exact Na|exact Va| |exact Rg]. rewrite map_app. apply Forall2_app.
  - assert (G' : forall T, In T Ts' -> good_ref T) by (intros T I; apply G; apply in_or_app; auto). clear - Fr Fk G'. revert Ts' Fr G'. induction Fk as [|q k qs K1 M Fk IH]; intros Ts' Fr G'; inversion Fr as [|? T ? Ts Re Fr']; subst; [constructor|]. cbn [map]. constructor.
    + destruct M as (_ & Et & _ & _ & Em & _). unfold case_variant. destruct (colon_split (ec_name k)). cbn [va_name va_type]. split; [apply variant_known|]. rewrite Et, Em. exists (ty q). split; [reflexivity|]. apply G'; [left; auto|auto].
    + apply IH; auto. intros T' I. apply G'. right; auto.
  - assert (G' : forall T, In T Us -> good_node T) by (intros T I; apply G; apply in_or_app; auto).
    assert (Kc : forall x, In x (tagged_children ["simpleType"] c) -> part x schema /\ tag "simpleType" x).
    { intros x I. apply in_tagged in I as [I (tg & [<-|[]] & T)]. split; auto. eapply part_trans; [|exact Pc]. apply (part_kid ["simpleType"]); auto. exists "simpleType". cbn. auto. }
    assert (Sub : incl (en_subtypes en) (en_subtypes en)) by apply incl_refl. revert Sub Fd Kc G'. revert Ne. generalize (en_subtypes en) at 1 2 as es. generalize (tagged_children ["simpleType"] c) as cs. generalize 0%N as n.
    intros n cs es Ne. clear G Rg De Na Hi Ic Ec. revert Us. induction Ne as [n|n ds x cs kk K2' e' es He Ix M Ne IH]; intros Us Sub Fd Kc G'; inversion Fd as [|? U ? Us' Dx Fd']; subst; [constructor|]. cbn [map]. constructor.
    + destruct M as (_ & Et & _ & _ & Em & _). unfold case_variant. destruct (colon_split (ec_name kk)). cbn [va_name va_type]. split; [apply variant_known|]. rewrite Et, Em. eexists. split; [reflexivity|]. change (modified u ?x []) with x.
      destruct (Kc x (or_introl eq_refl)) as [Px Tx].
      assert (Hs := simple_text u schema f1 Td Or x c _ e' Px Tx He). destruct (nested_placed u f1 its _ _ p _ Ai (Sub _ (or_introl eq_refl)) Ii) as (l & Il & Jl).
      destruct (head_item u f1 (set_name (lit "EnumCaseType_" ++ ds) e') l) as (i' & rr & -> & Di); auto.
      { destruct Hs as [(tu & ->)|(en' & -> & _)]; exact Logic.I. }
      rewrite entity_name_set_name in Di. rewrite (index_dec _ _ Ix) in *. destruct (own_token u tns xsn _ (ScopeProofs.case_name xsn n)) as (w & W). rewrite W in *.
      eapply (G' U (or_introl eq_refl)); eauto. apply names_at; auto. eapply head_placed; eauto.
    + apply IH; auto; intros y Iy; [apply Sub; right; auto|apply Kc; right; auto|apply G'; right; auto].
Qed.
Lemma node_ref T : (forall l, T <> TBuiltin l) -> good_node T -> good_ref T.
Proof.
  intros N G q path Re. inversion Re as [? l Q B|? l d ? To De Ds]; subst; [destruct (N l); auto|]. destruct (declared_clear l d De) as [Pd Cl]. rewrite (own_ty u f1 q l To Cl). destruct De as (I & Tg & Nm).
  assert (Id := declaration_in schema _ d I Tg ltac:(right; left; auto)). apply In_nth_error in Id as (k & Hk). destruct (declaration_parsed u schema f0 H k d Hk) as (e & He & Pe).
  assert (Te := simple_text u schema f1 Td Or d schema [] e Pd Tg Pe). assert (In1 : In e (rf_types f1)) by (eapply nth_error_In, types_at; eauto; apply text_not_struct; auto).
  assert (El : set_name l e = e).
  { destruct (simple_type_ok _ _ _ _ _ Tg Pe) as (c & e0 & _ & _ & [[_ (nm & Hn & ->)]|(X & _)]); [|destruct (X (proj1 O))]. assert (nm = l) by (unfold has in *; congruence). subst nm. destruct e0; reflexivity. }
  destruct (top_placed u f1 its It e In1) as (li & Hi & Ic). destruct (head_item u f1 e li) as (i & r & -> & Di); auto.
  { destruct Te as [(tu & ->)|(en & -> & _)]; exact Logic.I. }
  rewrite <- El in Hi. eapply G; eauto. rewrite <- El, entity_name_set_name in Di. destruct (own_token u tns xsn l (clear_own u tns xsn l Cl)) as (w & W). rewrite W in *. apply names_top; auto. eapply head_placed; eauto.
Qed.
Lemma all_good T : (regular_simple T -> good_ref T /\ good_node T) /\ (forall B fs, T = TRestriction B fs -> regular_simple B -> good_ref B).
Proof.
  induction T as [l|B fs [IH _]|n E [IH1 IH2]|Ts IH] using stype_ind'; (split; [|intros B' fs' Eq; try discriminate]).
  - intros Rg. split; [|intros d pn anc e nm path t p i r De; inversion De]. intros q path Re. inversion Re as [? ? Q B|? l' d ? To De Ds]; subst; [|inversion Ds]. apply builtin_good; auto.
  - intros Rg. assert (X : good_node (TRestriction B fs)) by (apply restriction_node; auto; apply IH). split; auto. apply node_ref; auto. discriminate.
  - injection Eq as <- <-. intros Rg. apply IH; auto.
  - intros Rg. assert (X : good_node (TList n E)) by (apply list_node; auto; apply IH1, Rg). split; auto. apply node_ref; auto. discriminate.
  - intros Rg. assert (X : good_node (TUnion Ts)). { apply union_node; auto. intros T I. rewrite Forall_forall in IH. apply (IH T I). apply in_split in I as (a & b & ->). apply (proj1 (regular_union _) Rg a T b eq_refl). }
    split; auto. apply node_ref; auto. discriminate.
Qed.
Lemma element_good T l d t path : regular_simple T -> SpecFit.declared schema "element" l d -> absent d "ref" -> absent d "type" -> tagged_children ["simpleType"; "complexType"] d = [t] -> tag "simpleType" t -> described t T -> good path (ty l) T.
Proof.
  intros Rg De Ar At Et Tt Ds. destruct (all_good T) as [X _]. destruct (X Rg) as [_ G]. destruct De as (I & Te & N). assert (Id := declaration_in schema _ d I Te ltac:(right; right; left; auto)). assert (Pd := declaration_part _ _ Id). apply In_nth_error in Id as (k & Hk).
  assert (Cl := part_clear u schema f1 Or d l Pd N). destruct (declaration_parsed u schema f0 H k d Hk) as (e & He & Pe). destruct (global_element_shape u schema [] d e (proj1 O) Te Pe) as (nm & Hn & Sh).
  assert (nm = l) by (unfold has in *; congruence). subst nm.
  assert (Pt : part t schema). { eapply part_trans; [|exact Pd]. assert (Y : In t (tagged_children ["simpleType"; "complexType"] d)) by (rewrite Et; left; auto). apply in_tagged in Y as [Y Z]. eapply part_kid; eauto. }
  unfold absent in At. rewrite At, Et in Sh. destruct Sh as [[Y _]|(t' & e0 & Ft & Hp & ->)]; [discriminate|]. destruct Ft as ([|? [|]] & [= <-]).
  assert (Te0 := simple_text u schema f1 Td Or t _ _ e0 Pt Tt Hp). assert (Ts := text_set l e0 Te0). assert (In1 : In (set_name l e0) (rf_types f1)) by (eapply nth_error_In, types_at; eauto; apply text_not_struct; auto).
  destruct (top_placed u f1 its It _ In1) as (li & Hi & Ic). destruct (head_item u f1 (set_name l e0) li) as (i & r & -> & Di); auto.
  { destruct Ts as [(tu & ->)|(en & -> & _)]; exact Logic.I. }
  eapply G; eauto. rewrite entity_name_set_name in Di. destruct (own_token u tns xsn l (clear_own u tns xsn l Cl)) as (w & W). rewrite W in *. apply names_top; auto. eapply head_placed; eauto.
Qed.
Lemma good_handles path t T : good path t T -> handles A lexical order size pattern digits u lib_read lib_show lib_cmp lib_len P path t T.
Proof.
  intros (_ & _ & G3 & G4 & _). split; [|intros Gd s v Al Rd Ac; eapply G4; eauto]. intros s x Dx Sp Al. destruct (G3 s x Dx Sp Al) as (v & Rd & Ac & St). exists v. split; auto. split; [intros v' Rd'; symmetry; eapply (reads_unique u P Un); eauto|]. split; auto.
Qed.
End Final.

Definition own_validated (x : list str * item) : list (list str * list token) := match snd x with IValidate n _ => [(fst x, n)] | _ => [] end.
Lemma validated_placed i : forall path, validated path i = concat (map own_validated (placed path i)).
Proof.
  induction i as [i N|m l IH] using item_nested_ind; intros path; [destruct i; auto; exfalso; eapply N; eauto|].
  cbn [validated placed]. cbn [map List.concat]. unfold own_validated at 1. cbn [snd app]. induction l as [|i l IHl]; auto. cbn. rewrite map_app, concat_app, IH by (left; auto). f_equal. apply IHl. intros; apply IH; right; auto.
Qed.
Lemma validated_places path its : concat (map (validated path) its) = concat (map own_validated (concat (map (placed path) its))).
Proof. induction its as [|i l IH]; auto. cbn. rewrite map_app, concat_app, IH, validated_placed. auto. Qed.
Lemma one_validate its : NoDup (concat (map (validated []) its)) -> forall p m ks ks', In (p, IValidate m ks) (concat (map (placed []) its)) -> In (p, IValidate m ks') (concat (map (placed []) its)) -> ks = ks'.
Proof.
  rewrite validated_places. intros N p m ks ks' I J. assert (E := nodup_own own_validated _ _ _ (p, m) N I J (or_introl eq_refl) (or_introl eq_refl)). congruence.
Qed.

Theorem document_values u roots schema f its : document roots schema -> ok_schema schema -> tidy schema -> parse u roots = Ok f ->
  (forall x, part x schema -> orderly u schema (ns_prefix (rf_target_ns f)) (ns_prefix (rf_xsd_ns f)) x) ->
  separate_types schema (SpecGen.ty u (fun q => format_type_name u q (rf_xsd_ns f) (rf_target_ns f))) (format_name u) ->
  all_items u (rf_target_ns f) (fun q => format_type_name u q (rf_xsd_ns f) (rf_target_ns f)) (format_name u) (variant_name u (rf_target_ns f)) (rf_types f) its ->
  let own := ns_prefix (rf_target_ns f) in let xsd := ns_prefix (rf_xsd_ns f) in
  let ty := SpecGen.ty u (fun q => format_type_name u q (rf_xsd_ns f) (rf_target_ns f)) in
  let handles := handles A lexical order size pattern digits u lib_read lib_show lib_cmp lib_len (concat (map (placed []) its)) in
  forall T path, regular_simple A lexical order size pattern digits u lib_read lib_show T ->
    (forall q, refers schema own xsd q T -> handles path (ty q) T) /\
    (forall l d t, SpecFit.declared schema "element" l d -> absent d "ref" -> absent d "type" -> tagged_children ["simpleType"; "complexType"] d = [t] -> tag "simpleType" t ->
       described schema own xsd t T -> handles path (ty l) T).
Proof.
  intros Do O T H Or Sep A0 own xsd ty hd Ty path Rg. assert (Dt := document_distinct u roots schema f its Do O T H Or Sep A0). assert (Un := distinct_unshadowed _ Dt).
  assert (Uv : forall p m ks ks', In (p, IValidate m ks) (concat (map (placed []) its)) -> In (p, IValidate m ks') (concat (map (placed []) its)) -> ks = ks') by (apply one_validate, Dt).
  destruct Do as (a & b & -> & E & L). destruct (parse_document u (a ++ schema :: b)) as [PD _].
  destruct (proj1 (proj1 (PD a schema b eq_refl E L) f) H) as (f0 & Hp & Hl). clear PD. destruct T as [Td _]. split.
  - intros q Re. eapply good_handles; eauto. destruct (all_good u schema f0 f its O Hp Hl Td Or A0 Un Uv Ty) as [X _]. apply X; auto.
  - intros l d t De Ar At Et Tt Ds. eapply good_handles; eauto. eapply (element_good u schema f0 f its); eauto.
Qed.
End Values.
