(** Property theorems C72: generators put together with [GeneratorBuilder]. *)
From Coq Require Import Arith NArith ZArith Bool Ascii String List Lia.
From Verif Require Import Str StrFacts Xml Names Entity Parser Link LinkProofs Gen GenProofs PropsGen Builder.
Import ListNotations.
Local Open Scope string_scope.
Local Open Scope list_scope.
Notation concat := List.concat.

(** What is asked for by a chain of calls: the values given for one kind of sub-generator, in
    order. *)
Fixpoint given {A} (pick : call -> option A) (cs : list call) : list A :=
  match cs with
  | [] => []
  | c :: cs' => match pick c with Some x => x :: given pick cs' | None => given pick cs' end
  end.
Definition for_tuple c := match c with WithTuple s => Some s | _ => None end.
Definition for_struct c := match c with WithStruct s => Some s | _ => None end.
Definition for_field c := match c with WithField s => Some s | _ => None end.
Definition for_base c := match c with WithBase s => Some s | _ => None end.
Definition for_case c := match c with WithCase s => Some s | _ => None end.
Definition for_enum c := match c with WithEnum s => Some s | _ => None end.
Definition for_alias c := match c with WithAlias s => Some s | _ => None end.
Definition for_import c := match c with WithImport s => Some s | _ => None end.

(** One lemma for every slot: what was there, what was given, what is inserted. *)
Lemma last_cons {A} (x : A) l d : last (x :: l) d = last l x.
Proof. revert x d. induction l as [|y l IH]; intros x d; [reflexivity|]. change (last (x :: y :: l) d) with (last (y :: l) d). rewrite !IH. reflexivity. Qed.
Definition choice {A} (l : list A) (before : option A) : option A :=
  match l with
  | [] => before
  | x :: l' => Some (last l' x)
  end.
Lemma choice_cons {A} (x : A) l o : choice (x :: l) o = choice l (Some x).
Proof. destruct l as [|y l]; [reflexivity|]. cbn [choice]. f_equal. apply last_cons. Qed.
Lemma slot {A} (get : generator -> option A) (pick : call -> option A) :
  (forall g c, get (with_ g c) = match pick c with Some x => Some x | None => get g end) ->
  forall cs g, get (fold_left with_ cs g) = choice (given pick cs) (get g).
Proof.
  intros H cs. induction cs as [|c cs IH]; intros g; cbn [fold_left given].
  - reflexivity.
  - rewrite IH, H. destruct (pick c) as [x|]; [|reflexivity]. rewrite choice_cons. reflexivity.
Qed.
Lemma choice_default {A} (l : list A) d : get_or_insert d (choice l None) = Some (last l d).
Proof. destruct l as [|x l]; [reflexivity|]. cbn [choice get_or_insert]. f_equal. symmetry. apply last_cons. Qed.

(** C72: after any calls in any order, [build] gives a generator that has every sub-generator:
    for each kind the one given last for it, and the default if none was given. *)
Theorem C72_built : forall u cs, let g := built u cs in
  g_tuple g = Some (last (given for_tuple cs) default_tuple) /\
  g_struct g = Some (last (given for_struct cs) default_struct) /\
  g_field g = Some (last (given for_field cs) default_field) /\
  g_base g = Some (last (given for_base cs) DefaultBaseGenerator) /\
  g_case g = Some (last (given for_case cs) (default_case u)) /\
  g_enum g = Some (last (given for_enum cs) default_enum) /\
  g_alias g = Some (last (given for_alias cs) default_alias) /\
  g_import g = Some (last (given for_import cs) default_import) /\
  g_target_ns g = None /\ g_xsd_ns g = None.
Proof.
  intros u cs g. unfold g, built, build. cbn [g_tuple g_struct g_field g_base g_case g_enum g_alias g_import g_target_ns g_xsd_ns].
  assert (N : forall cs g, g_target_ns (fold_left with_ cs g) = g_target_ns g /\ g_xsd_ns (fold_left with_ cs g) = g_xsd_ns g).
  { clear. induction cs as [|c cs IH]; intros g; [auto|]. cbn. destruct (IH (with_ g c)) as [-> ->]. destruct g, c; auto. }
  repeat split; try apply N;
    match goal with |- get_or_insert _ (?f (fold_left with_ cs generator_default)) = Some (last (given ?p cs) _) =>
      rewrite (slot f p) by (intros [] []; reflexivity); apply choice_default end.
Qed.
Print Assumptions C72_built.

(** The name spaces of a generator, as set by [generate_rs_file] *)
Definition in_file (tns xsd : option namespace) (g : generator) : generator :=
  {| g_target_ns := tns; g_xsd_ns := xsd; g_tuple := g_tuple g; g_struct := g_struct g; g_field := g_field g; g_base := g_base g;
     g_case := g_case g; g_enum := g_enum g; g_alias := g_alias g; g_import := g_import g |}.

(** C72: the sub-generator called for an entity is the one that was given last for its kind;
    it gets the generator with all its sub-generators, and there is always one. *)
Theorem C72_own : forall u cs tns xsd n e, let g := in_file tns xsd (built u cs) in
  let v := {| v_tns := tns; v_xsd := xsd; v_base := base_of u (last (given for_base cs) DefaultBaseGenerator); v_gen := generate_with u n g |} in
  generate_with u (S n) g e =
  match e with
  | ETuple t => last (given for_tuple cs) default_tuple v t
  | EStruct s => last (given for_struct cs) default_struct v s
  | EField f => last (given for_field cs) default_field v f
  | EEnum x => last (given for_enum cs) default_enum v x
  | ECase c => last (given for_case cs) (default_case u) v c
  | EAlias a => last (given for_alias cs) default_alias v a
  | EImport i => last (given for_import cs) default_import v i
  end.
Proof.
  intros u cs tns xsd n e g v. destruct (C72_built u cs) as (T & S & F & B & C & E & A & I & _).
  change (g_tuple g = Some (last (given for_tuple cs) default_tuple)) in T.
  change (g_struct g = Some (last (given for_struct cs) default_struct)) in S.
  change (g_field g = Some (last (given for_field cs) default_field)) in F.
  change (g_base g = Some (last (given for_base cs) DefaultBaseGenerator)) in B.
  change (g_case g = Some (last (given for_case cs) (default_case u))) in C.
  change (g_enum g = Some (last (given for_enum cs) default_enum)) in E.
  change (g_alias g = Some (last (given for_alias cs) default_alias)) in A.
  change (g_import g = Some (last (given for_import cs) default_import)) in I.
  assert (X : g_target_ns g = tns) by reflexivity. assert (Y : g_xsd_ns g = xsd) by reflexivity. clearbody g.
  subst v. cbn [generate_with]. rewrite X, Y, B. destruct e; rewrite ?T, ?S, ?F, ?C, ?E, ?A, ?I; reflexivity.
Qed.
Print Assumptions C72_own.

(** The kinds of entities that occur in an entity, itself included. *)
Inductive kind := KTuple | KStruct | KField | KEnum | KCase | KAlias | KImport.
Definition kind_of (e : entity) : kind :=
  match e with
  | ETuple _ => KTuple | EStruct _ => KStruct | EField _ => KField | EEnum _ => KEnum | ECase _ => KCase
  | EAlias _ => KAlias | EImport _ => KImport
  end.
Inductive occurs (k : kind) : entity -> Prop :=
| occurs_here e : kind_of e = k -> occurs k e
| occurs_tuple t e : In e (tu_subtypes t) -> occurs k e -> occurs k (ETuple t)
| occurs_struct s e : In e (st_subtypes s) -> occurs k e -> occurs k (EStruct s)
| occurs_field s f : In f (st_fields s) -> k = KField -> occurs k (EStruct s)
| occurs_in_field s f e : In f (st_fields s) -> In e (fl_subtypes f) -> occurs k e -> occurs k (EStruct s)
| occurs_enum x e : In e (en_subtypes x) -> occurs k e -> occurs k (EEnum x)
| occurs_case x c : In c (en_cases x) -> k = KCase -> occurs k (EEnum x).
(** The kind a call is for; the base generator is used for every kind. *)
Definition concerns (c : call) (k : kind) : Prop :=
  match c with
  | WithBase _ => True
  | WithTuple _ => k = KTuple | WithStruct _ => k = KStruct | WithField _ => k = KField | WithCase _ => k = KCase
  | WithEnum _ => k = KEnum | WithAlias _ => k = KAlias | WithImport _ => k = KImport
  end.

Lemma given_none {A} (pick : call -> option A) cs d : (forall c, In c cs -> pick c = None) -> last (given pick cs) d = d.
Proof.
  intros H. assert (given pick cs = []) as ->; [|reflexivity]. induction cs as [|c cs IH]; [reflexivity|]. cbn.
  rewrite (H c) by (left; reflexivity). apply IH. intros x I. apply H. right. exact I.
Qed.
Lemma rtraverse_big {A B} (f : nat -> A -> res B) (h : A -> res B) (l : list A) :
  (forall x, In x l -> exists N, forall n, N <= n -> f n x = h x) ->
  exists N, forall n, N <= n -> rtraverse (f n) l = rtraverse h l.
Proof.
  induction l as [|x l IH]; intros H; [exists 0; reflexivity|].
  destruct (H x (or_introl eq_refl)) as [N1 H1]. destruct IH as [N2 H2]; [intros y I; apply H; right; exact I|].
  exists (max N1 N2). intros n L. cbn. rewrite H1 by lia. rewrite H2 by lia. reflexivity.
Qed.
Lemma rtraverse_pure {A B} (h : A -> B) (l : list A) : rtraverse (fun x => Ok (h x)) l = Ok (map h l).
Proof. induction l as [|x l IH]; [reflexivity|]. cbn. rewrite IH. reflexivity. Qed.

(** C72: entities in which no kind occurs for which an own generator was given get the text
    of the default generator (Gen.v), whatever was given for other kinds. *)
Theorem C72_others : forall u cs tns xsd e,
  (forall c k, In c cs -> concerns c k -> ~ occurs k e) ->
  exists N, forall n, N <= n -> generate_with u n (in_file tns xsd (built u cs)) e = gen u tns xsd e.
Proof.
  intros u cs tns xsd e.
  assert (Here : forall e, (forall c k, In c cs -> concerns c k -> ~ occurs k e) -> forall c, In c cs -> ~ concerns c (kind_of e)).
  { intros x H c I J. apply (H c _ I J). constructor. reflexivity. }
  assert (NB : (forall c k, In c cs -> concerns c k -> ~ occurs k e) -> last (given for_base cs) DefaultBaseGenerator = DefaultBaseGenerator).
  { intros H. apply given_none. intros c I. destruct c; try reflexivity. destruct (Here _ H _ I). exact Logic.I. }
  intros H0. specialize (NB H0). revert H0.
  assert (Fd : forall f, (forall c, In c cs -> ~ concerns c KField) -> forall n, 1 <= n ->
    generate_with u n (in_file tns xsd (built u cs)) (EField f) = Ok (gen_field u tns xsd f)).
  { intros f H [|n] L; [lia|]. rewrite C72_own. cbv zeta. rewrite NB. rewrite given_none; [reflexivity|].
    intros c I. specialize (H c I). destruct c; try reflexivity. exfalso. apply H. reflexivity. }
  assert (Cs : forall c, (forall c, In c cs -> ~ concerns c KCase) -> forall n, 1 <= n ->
    generate_with u n (in_file tns xsd (built u cs)) (ECase c) = Ok (gen_case u tns xsd c)).
  { intros x H [|n] L; [lia|]. rewrite C72_own. cbv zeta. rewrite NB. rewrite given_none; [reflexivity|].
    intros c I. specialize (H c I). destruct c; try reflexivity. exfalso. apply H. reflexivity. }
  induction e as [s IHf IHs|t IH|x IH|f|c|a|i] using entity_sub_ind; intros H.
  - destruct (rtraverse_big (fun n => generate_with u n (in_file tns xsd (built u cs))) (gen u tns xsd) (st_subtypes s)) as [N1 H1].
    { intros y I. apply IHs; [exact I|]. intros c k J K O. apply (H c k J K). eapply occurs_struct; eauto. }
    destruct (rtraverse_big (fun n f => rmap (join nl) (rtraverse (generate_with u n (in_file tns xsd (built u cs))) (fl_subtypes f)))
                (fun f => rmap (join nl) (rtraverse (gen u tns xsd) (fl_subtypes f))) (st_fields s)) as [N2 H2].
    { intros f I. destruct (rtraverse_big (fun n => generate_with u n (in_file tns xsd (built u cs))) (gen u tns xsd) (fl_subtypes f)) as [N H'].
      - intros y J. apply (IHf f y I J). intros c k J' K O. apply (H c k J' K). eapply occurs_in_field; eauto.
      - exists N. intros n L. rewrite H' by exact L. reflexivity. }
    destruct (rtraverse_big (fun n f => generate_with u n (in_file tns xsd (built u cs)) (EField (prefix_field (mod_name u s) f)))
                (fun f => Ok (gen_field u tns xsd (prefix_field (mod_name u s) f))) (st_fields s)) as [N3 H3].
    { intros f I. exists 1. intros n L. apply Fd; [|exact L]. intros c J K. apply (H c _ J K). eapply occurs_field; eauto. }
    exists (S (max N1 (max N2 N3))). intros [|n] L; [lia|]. rewrite C72_own. cbv zeta. rewrite NB.
    rewrite given_none by (intros c I; pose proof (Here _ H c I) as K; destruct c; try reflexivity; exfalso; apply K; reflexivity).
    unfold default_struct. cbn [v_tns v_xsd v_gen v_base base_of DefaultBaseGenerator method b_join b_mod o_join o_mod]. change (format_name u (st_name s)) with (mod_name u s).
    rewrite H1 by lia. rewrite H2 by lia. rewrite H3 by lia. rewrite rtraverse_pure. cbn [bind gen]. unfold gen_fields. rewrite map_map.
    destruct (rtraverse _ (st_fields s)) as [x| |]; cbn [bind]; try reflexivity. destruct (rtraverse _ (st_subtypes s)) as [y| |]; reflexivity.
  - destruct (rtraverse_big (fun n => generate_with u n (in_file tns xsd (built u cs))) (gen u tns xsd) (tu_subtypes t)) as [N1 H1].
    { intros y I. apply IH; [exact I|]. intros c k J K O. apply (H c k J K). eapply occurs_tuple; eauto. }
    exists (S N1). intros [|n] L; [lia|]. rewrite C72_own. cbv zeta. rewrite NB.
    rewrite given_none by (intros c I; pose proof (Here _ H c I) as K; destruct c; try reflexivity; exfalso; apply K; reflexivity).
    unfold default_tuple. cbn [v_tns v_xsd v_gen v_base base_of DefaultBaseGenerator method b_join o_join]. rewrite H1 by lia. cbn [gen].
    destruct (rtraverse _ (tu_subtypes t)) as [y| |]; try reflexivity. cbn [bind rmap]. unfold tuple_validation.
    change (b_tuple_type _ t) with (tuple_type u tns xsd t). destruct (rtraverse _ (tu_facets t)) as [z| |]; reflexivity.
  - destruct (rtraverse_big (fun n => generate_with u n (in_file tns xsd (built u cs))) (gen u tns xsd) (en_subtypes x)) as [N1 H1].
    { intros y I. apply IH; [exact I|]. intros c k J K O. apply (H c k J K). eapply occurs_enum; eauto. }
    destruct (rtraverse_big (fun n c => generate_with u n (in_file tns xsd (built u cs)) (ECase c))
                (fun c => Ok (gen_case u tns xsd c)) (en_cases x)) as [N2 H2].
    { intros y I. exists 1. intros n L. apply Cs; [|exact L]. intros c J K. apply (H c _ J K). eapply occurs_case; eauto. }
    exists (S (max N1 N2)). intros [|n] L; [lia|]. rewrite C72_own. cbv zeta. rewrite NB.
    rewrite given_none by (intros c I; pose proof (Here _ H c I) as K; destruct c; try reflexivity; exfalso; apply K; reflexivity).
    unfold default_enum. cbn [v_tns v_xsd v_gen v_base base_of DefaultBaseGenerator method b_join o_join]. rewrite H1 by lia. rewrite H2 by lia. rewrite rtraverse_pure. cbn [gen].
    destruct (rtraverse _ (en_subtypes x)) as [y| |]; reflexivity.
  - exists 1. apply Fd. exact (Here _ H).
  - exists 1. apply Cs. exact (Here _ H).
  - exists 1. intros [|n] L; [lia|]. rewrite C72_own. cbv zeta. rewrite NB.
    rewrite given_none by (intros c I; pose proof (Here _ H c I) as K; destruct c; try reflexivity; exfalso; apply K; reflexivity). reflexivity.
  - exists 1. intros [|n] L; [lia|]. rewrite C72_own. cbv zeta. rewrite NB.
    rewrite given_none by (intros c I; pose proof (Here _ H c I) as K; destruct c; try reflexivity; exfalso; apply K; reflexivity). reflexivity.
Qed.
Print Assumptions C72_others.

(** C72: the generator of the tools ([GeneratorBuilder::default().build()]) writes the text of
    Gen.v for every file. *)
Theorem C72_default : forall u f, exists N, forall n, N <= n ->
  snd (file_with u n (built u []) f) = rmap snd (generate_rs_file u f).
Proof.
  intros u f.
  destruct (rtraverse_big (fun n => generate_with u n (in_file (rf_target_ns f) (rf_xsd_ns f) (built u []))) (gen u (rf_target_ns f) (rf_xsd_ns f)) (rf_types f)) as [N H].
  { intros e _. apply C72_others. intros c k []. }
  exists N. intros n L. unfold file_with. cbn [snd]. change (rtraverse (generate_with u n _) (rf_types f)) with
    (rtraverse (generate_with u n (in_file (rf_target_ns f) (rf_xsd_ns f) (built u []))) (rf_types f)).
  rewrite H by exact L. unfold generate_rs_file.
  assert (G : forall l, rtraverse (generate u (rf_target_ns f) (rf_xsd_ns f)) l =
    rmap (fun ts => combine (map (touched u) l) ts) (rtraverse (gen u (rf_target_ns f) (rf_xsd_ns f)) l)).
  { clear. induction l as [|x l IH]; [reflexivity|]. cbn. rewrite IH. unfold generate.
    destruct (gen u _ _ x); cbn; try reflexivity. destruct (rtraverse (gen u _ _) l); reflexivity. }
  rewrite G. destruct (rtraverse (gen u (rf_target_ns f) (rf_xsd_ns f)) (rf_types f)) as [ts| |] eqn:E; cbn; try reflexivity.
  f_equal. f_equal. assert (Ln : List.length (map (touched u) (rf_types f)) = List.length ts).
  { rewrite map_length. clear -E. revert ts E. induction (rf_types f) as [|x l IH]; intros ts E; cbn in E; [injection E as <-; reflexivity|].
    destruct (gen u _ _ x); cbn in E; try discriminate. destruct (rtraverse _ l); cbn in E; try discriminate. injection E as <-. cbn. f_equal. auto. }
  revert Ln. generalize (map (touched u) (rf_types f)). clear. intros l. revert ts. induction l as [|x l IH]; intros [|t ts]; cbn; try discriminate; [reflexivity|].
  intros [= L]. f_equal. apply IH. exact L.
Qed.
Print Assumptions C72_default.

(** C72: a generator used for one file after the other (as by wsdl-parser-cli) writes for each
    of them what it would have written for this file alone, also after failures. *)
Theorem C72_reuse : forall u n g fs, snd (files_with u n g fs) = map (fun f => snd (file_with u n g f)) fs.
Proof.
  intros u n g fs. revert g. induction fs as [|f fs IH]; intros g; [reflexivity|]. cbn [files_with map].
  unfold file_with at 1. specialize (IH (in_file (rf_target_ns f) (rf_xsd_ns f) g)). unfold in_file in IH.
  destruct (files_with u n _ fs) as [g2 ts]. cbn [snd] in *. rewrite IH. reflexivity.
Qed.
Print Assumptions C72_reuse.

(** Without [build] nothing can be generated. *)
Theorem C72_unbuilt : forall u n e, generate_with u n generator_default e = Panic.
Proof. intros u [|n] []; reflexivity. Qed.
Print Assumptions C72_unbuilt.

(** The stub of the tests (builder.rs l.111-118), here with the name. *)
Definition stub : sub (tuple entity) := fun _ t => Ok (lit "/* " ++ tu_name t ++ lit " */").
Definition quiet : sub (alias entity) := fun _ _ => Ok [].
Definition nested_tuple : entity := EStruct {| st_name := lit "order"; st_comment := None; st_fields := []; st_groups := [];
  st_subtypes := [tup "code" "xs:int" []] |}.
(** The stub is used inside a struct that is written by the default generator, the last of two
    generators wins, and generators for aliases do not matter. *)
Example C72_ex1 : exists s, generate_with u2 5 (in_file None None (built u2 [WithTuple (fun _ _ => Panic); WithAlias quiet; WithTuple stub])) nested_tuple = Ok s /\
  s = lit "#[derive(Default, Clone, PartialEq, Debug, YaSerialize, YaDeserialize)]
#[yaserde()]
pub struct Order {}

impl Validate for Order {}

pub mod order {
    use super::*;/* code */
    

}

".
Proof. eexists. split; vm_compute; reflexivity. Qed.
Example C72_ex2 : generate_with u2 5 (in_file None None (built u2 [WithAlias quiet; WithTuple stub])) (tup "code" "xs:int" []) = Ok (lit "/* code */") /\
  (exists s, generate_with u2 5 (in_file None None (built u2 [WithAlias quiet])) (tup "code" "xs:int" []) = Ok s /\ s <> lit "/* code */").
Proof. split; [vm_compute; reflexivity|]. eexists. split; [vm_compute; reflexivity|]. vm_compute. discriminate. Qed.
(** Two files with one generator: the second is not in the name space of the first. *)
Example C72_ex3 :
  let f1 := shop in let f2 := {| rf_types := rf_types shop; rf_groups := []; rf_target_ns := None; rf_xsd_ns := None |} in
  rf_target_ns f1 <> rf_target_ns f2 /\
  rmap snd (generate_rs_file u2 f1) <> rmap snd (generate_rs_file u2 f2) /\
  snd (files_with u2 9 (built u2 []) [f1; f2]) = [rmap snd (generate_rs_file u2 f1); rmap snd (generate_rs_file u2 f2)].
Proof. split; [vm_compute; discriminate|]. split; [vm_compute; discriminate|]. vm_compute. reflexivity. Qed.
