(** Property theorems C62: the directories processed by the command line tools. *)
From Coq Require Import Arith NArith ZArith Bool Ascii String List Lia.
From Verif Require Import Str StrFacts Xml Entity Parser SpecSchema Link SpecLink Gen SpecRust SpecGen RustFacts GenProofs PropsGen SpecDoc PropsDoc Cli SpecCli CliProofs.
Import ListNotations.
Local Open Scope string_scope.
Local Open Scope list_scope.
Local Open Scope N_scope.
Notation concat := List.concat.

(** C62: whatever happens, successful or not and whatever was there before, a path is left as
    it was, or it is a directory of the output, or it contains the code for an input file at
    the corresponding place. *)
Theorem C62_writes : forall convert es out d d' r q, process_dir convert es out d = (d', r) ->
  d' q = d q \/
  (d' q = Some Directory /\ ((exists a, out = a ++ q) \/ directory_place (InDir es) out q)) \/
  exists name s c, file_place (InDir es) out name (Some s) q /\ convert s = Ok c /\ d' q = Some (File c).
Proof.
  intros convert es out d d' r q H. destruct (process_changes convert es out d d' r H q) as [A|[[A B]|[[A B]|(p & s & c & A & B & C)]]].
  - auto.
  - right. left. split; [exact A|]. left. exact B.
  - right. left. split; [exact B|]. right. apply at_list_dir. auto.
  - right. right. destruct A as (n & x & I & A). destruct (at_entry_kind _ _ _ _ _ _ A) as (m & up & ->).
    pose proof (proj1 (at_list_file es out q m up (Some s)) (ex_intro _ n (ex_intro _ x (conj I A)))) as (rel & J & -> & ->).
    exists m, s, c. split; [|auto]. exists rel, (rs_name m). split; [exact J|]. split; [apply rs_name_spec; reflexivity|reflexivity].
Qed.
Print Assumptions C62_writes.

(** A directory is processed successfully if and only if every file in it, at any depth, can
    be read and converted. *)
Theorem C62_succeeds : forall convert es out d, sound_tree (InDir es) -> free d out ->
  ((exists d', process_dir convert es out d = (d', Ok tt)) <-> converts convert (InDir es)).
Proof.
  intros convert es out d S F. split.
  - intros (d' & H). exact (process_all convert es out d d' H).
  - intros C. destruct (process_done convert es out d (good_tree convert _ S C) F) as (d' & H & _). eauto.
Qed.
Print Assumptions C62_succeeds.

(** Then each directory has its counterpart and each file whose output name is its own has its
    code there; the directories leading to the output exist; the rest is as before. *)
Theorem C62_outputs : forall convert es out d d', sound_tree (InDir es) -> distinct_outputs (InDir es) -> free d out ->
  process_dir convert es out d = (d', Ok tt) -> forall q,
  (directory_place (InDir es) out q -> d' q = Some Directory) /\ (forall a, out = a ++ q -> d' q = Some Directory) /\
  (forall name t, file_place (InDir es) out name t q -> exists s c, t = Some s /\ convert s = Ok c /\ d' q = Some (File c)) /\
  (~ directory_place (InDir es) out q -> (forall name t, ~ file_place (InDir es) out name t q) -> (forall a, out <> a ++ q) -> d' q = d q).
Proof.
  intros convert es out d d' S N F H q. pose proof (process_all convert es out d d' H) as C.
  destruct (process_done convert es out d (good_tree convert _ S C) F) as (d2 & H2 & D & O). rewrite H in H2. injection H2 as <-.
  split; [|split; [|split]].
  - intros P. apply at_list_dir in P. destruct P as [P| ->]; [exact (D q KDir P)|exact (O [] out eq_refl)].
  - intros a P. exact (O a q P).
  - intros name t (rel & o & J & A & ->). apply rs_name_spec in A. subst o. destruct (C (name :: rel) t J) as (s & c & -> & Ec).
    assert (P : at_list es out (rs_name name :: rel ++ out) (KFile (name :: rel ++ out) (Some s))) by (apply at_list_file; eauto).
    destruct (D _ _ P) as (p & s' & c' & P' & Ec' & Eq'). destruct P' as (n & x & I & A).
    destruct (at_entry_kind _ _ _ _ _ _ A) as (m & up & ->).
    pose proof (proj1 (at_list_file es out (rs_name name :: rel ++ out) m up (Some s')) (ex_intro _ n (ex_intro _ x (conj I A)))) as (rel' & J' & -> & E).
    injection E as E1 E2. apply app_inv_tail in E2. subst rel'.
    assert (name = m) as <-.
    { apply (N rel name (Some s) m (Some s') (rs_name name) J J'); apply rs_name_spec; [reflexivity|exact E1]. }
    exists s, c'. split; [reflexivity|]. split; [|exact Eq']. 
    assert (U : forall x, (forall r es0, holds x r (InDir es0) -> NoDup (map fst es0)) -> forall r a b, holds x r a -> holds x r b -> a = b).
    { clear. intros x Hx r a b A. revert b. induction A as [x|es n x rel y I A IH]; intros b B.
      - symmetry. apply holds_nil. exact B.
      - apply holds_dir in B. destruct B as [[E _]|(m & z & rel' & I' & B & E)]; [destruct rel; discriminate|].
        apply app_inj_tail in E. destruct E as [<- <-].
        assert (x = z) as <-.
        { pose proof (Hx [] es (holds_here _)) as N. clear -N I I'. induction es as [|[k w] es IH]; [destruct I|].
          cbn [map fst] in N. inversion N as [|? ? N1 N2]; subst. destruct I as [E|I], I' as [E'|I'].
          - congruence.
          - injection E as -> ->. exfalso. apply N1. apply (in_map fst) in I'. exact I'.
          - injection E' as -> ->. exfalso. apply N1. apply (in_map fst) in I. exact I.
          - auto. }
        apply IH; [|exact B]. intros r es0 R. apply (Hx (r ++ [n])). econstructor; eassumption. }
    specialize (U _ (fun r es0 R => proj1 (S r es0 R)) _ _ _ J J'). injection U as <-. exact Ec'.
  - intros A B E. destruct (C62_writes convert es out d d' _ q H) as [X|[(_ & [(a & X)|X])|(name & s & c & X & _)]];
      [exact X|exfalso; exact (E a X)|exfalso; exact (A X)|exfalso; exact (B name _ X)].
Qed.
Print Assumptions C62_outputs.

(** The order in which the entries are read does not matter. *)
Definition same_files (x y : input) : Prop :=
  (forall rel t, holds x rel (InFile t) <-> holds y rel (InFile t)) /\
  forall rel, (exists es, holds x rel (InDir es)) <-> exists es, holds y rel (InDir es).
Theorem C62_order : forall convert es1 es2 out d d1, sound_tree (InDir es1) -> sound_tree (InDir es2) ->
  distinct_outputs (InDir es1) -> same_files (InDir es1) (InDir es2) -> free d out ->
  process_dir convert es1 out d = (d1, Ok tt) ->
  exists d2, process_dir convert es2 out d = (d2, Ok tt) /\ forall q, d1 q = d2 q.
Proof.
  intros convert es1 es2 out d d1 S1 S2 N (SF & SD) F H.
  assert (C1 : converts convert (InDir es1)) by exact (process_all convert es1 out d d1 H).
  assert (C2 : converts convert (InDir es2)) by (intros rel t J; apply SF in J; exact (C1 rel t J)).
  destruct (proj2 (C62_succeeds convert es2 out d S2 F) C2) as (d2 & H2). exists d2. split; [exact H2|]. intros q.
  assert (N2 : distinct_outputs (InDir es2)).
  { intros rel n1 t1 n2 t2 o A B. apply SF in A. apply SF in B. exact (N rel n1 t1 n2 t2 o A B). }
  destruct (C62_outputs convert es1 out d d1 S1 N F H q) as (A1 & Q1 & B1 & E1).
  destruct (C62_outputs convert es2 out d d2 S2 N2 F H2 q) as (A2 & Q2 & B2 & E2).
  assert (DP : directory_place (InDir es1) out q <-> directory_place (InDir es2) out q).
  { split; intros (rel & es & J & ->); [destruct (proj1 (SD rel) (ex_intro _ es J)) as (es' & J')|destruct (proj2 (SD rel) (ex_intro _ es J)) as (es' & J')];
      exists rel, es'; auto. }
  assert (FP : forall name t, file_place (InDir es1) out name t q <-> file_place (InDir es2) out name t q).
  { intros name t. split; intros (rel & o & J & K); apply SF in J; exists rel, o; auto. }
  destruct (C62_writes convert es1 out d d1 _ q H) as [X|[(_ & [(a & X)|X])|(name & s & c & X & _)]].
  - destruct (C62_writes convert es2 out d d2 _ q H2) as [Y|[(_ & [(a & Y)|Y])|(name & s & c & Y & _)]].
    + congruence.
    + rewrite (Q1 a Y), (Q2 a Y). reflexivity.
    + rewrite (A2 Y), (A1 (proj2 DP Y)). reflexivity.
    + destruct (B2 _ _ Y) as (s2 & c2 & Z & W & ->). destruct (B1 _ _ (proj2 (FP _ _) Y)) as (s1 & c1 & Z1 & W1 & ->). congruence.
  - rewrite (Q1 a X), (Q2 a X). reflexivity.
  - rewrite (A1 X), (A2 (proj1 DP X)). reflexivity.
  - destruct (B1 _ _ X) as (s2 & c2 & Z & W & ->). destruct (B2 _ _ (proj1 (FP _ _) X)) as (s1 & c1 & Z1 & W1 & ->). congruence.
Qed.
Print Assumptions C62_order.

(** Schemas: a directory of supported and tidy documents is converted, and every output is the
    text of the items of its document. *)
Theorem C62_documents : forall u xml es out d, sound_tree (InDir es) -> distinct_outputs (InDir es) -> free d out ->
  (forall rel t, holds (InDir es) rel (InFile t) -> exists s roots schema, t = Some s /\ xml s = Ok roots /\
     document roots schema /\ ok_schema schema /\ tidy schema /\ not_self_derived schema) ->
  exists d', process_dir (xsd_convert u xml) es out d = (d', Ok tt) /\
  forall name s q roots, file_place (InDir es) out name (Some s) q -> xml s = Ok roots ->
    exists f its c, parse u roots = Ok f /\ file_items u f (rf_types f) its /\ d' q = Some (File c) /\
      lex u c = Some (concat (map (item_tokens u) its)).
Proof.
  intros u xml es out d S N F D.
  assert (K : forall s roots schema, xml s = Ok roots -> document roots schema -> ok_schema schema -> tidy schema -> not_self_derived schema ->
    exists f its c, parse u roots = Ok f /\ file_items u f (rf_types f) its /\ xsd_convert u xml s = Ok c /\ lex u c = Some (concat (map (item_tokens u) its))).
  { intros s roots schema X A B C E. destruct (C60_document u roots schema A B C E) as (f & P & its & f' & c & I & G & L).
    exists f, its, c. unfold xsd_convert. rewrite X. cbn [bind]. rewrite P. cbn [bind]. rewrite G. cbn [rmap snd]. auto. }
  assert (C : converts (xsd_convert u xml) (InDir es)).
  { intros rel t J. destruct (D rel t J) as (s & roots & schema & -> & X & A & B & C & E).
    destruct (K s roots schema X A B C E) as (f & its & c & _ & _ & Z & _). eauto. }
  destruct (proj2 (C62_succeeds _ es out d S F) C) as (d' & H). exists d'. split; [exact H|].
  intros name s q roots P X. destruct (C62_outputs _ es out d d' S N F H q) as (_ & _ & O & _).
  destruct (O name (Some s) P) as (s' & c & E & Z & W). injection E as <-.
  destruct P as (rel & o & J & _ & _). destruct (D _ _ J) as (s' & roots' & schema & E & X' & A & B & C' & E'). injection E as <-.
  rewrite X in X'. injection X' as <-. destruct (K s roots schema X A B C' E') as (f & its & c' & P & I & Z' & L).
  rewrite Z in Z'. injection Z' as <-. exists f, its, c. auto.
Qed.
Print Assumptions C62_documents.

(** A single file: what is printed is what would be written. *)
Theorem C62_single : forall convert default s c d,
  convert s = Ok c ->
  run convert default (Some (InFile (Some s))) None d = (d, c ++ [10], Ok tt) /\
  forall name dir, d dir = Some Directory -> d (name :: dir) <> Some Directory ->
    exists d', run convert default (Some (InFile (Some s))) (Some (name :: dir)) d = (d', [], Ok tt) /\
      d' (name :: dir) = Some (File c) /\ forall q, q <> name :: dir -> d' q = d q.
Proof.
  intros convert default s c d C. cbn [run process_single_file]. rewrite C. split; [reflexivity|]. intros name dir D N.
  unfold write_to_file. rewrite D. exists (put d (name :: dir) (File c)). split.
  - destruct (d (name :: dir)) as [[|?]|]; [congruence|reflexivity|reflexivity].
  - split; [apply put_here|]. intros q Q. apply put_other, Q.
Qed.
Print Assumptions C62_single.

(** *** Examples *)
Definition up (s : str) : res str := if existsb (fun c => c =? 33) s then Err else Ok (s ++ lit "!").
Definition empty : disk := fun q => match q with [] => Some Directory | _ => None end.
Definition t1 : list (str * input) :=
  [(lit "a.b.xsd", InFile (Some (lit "A"))); (lit "sub", InDir [(lit "c", InFile (Some (lit "C"))); (lit ".d", InFile (Some (lit "D")))])].
Definition o1 : path := [lit "rs"; lit "output"].
Example ex1 : let '(d, r) := process_dir up t1 o1 empty in
  r = Ok tt /\
  map d [[lit "a.b.rs"; lit "rs"; lit "output"]; [lit "sub"; lit "rs"; lit "output"]; [lit "c.rs"; lit "sub"; lit "rs"; lit "output"];
         [lit ".d.rs"; lit "sub"; lit "rs"; lit "output"]; [lit "output"]; [lit "a.b.xsd"; lit "rs"; lit "output"]]
  = [Some (File (lit "A!")); Some Directory; Some (File (lit "C!")); Some (File (lit "D!")); Some Directory; None].
Proof. vm_compute. split; reflexivity. Qed.
Ltac places := repeat match goal with
  | H : holds (InFile _) _ _ |- _ => apply holds_file in H; destruct H as [? H]
  | H : holds (InDir _) _ _ |- _ => apply holds_dir in H; destruct H as [[? H]|(? & ? & ? & ? & H & ?)]
  | H : In _ (_ :: _) |- _ => destruct H as [H|H]
  | H : In _ [] |- _ => destruct H
  | H : (_, _) = (_, _) |- _ => injection H as ? ?
  | H : InFile _ = InFile _ |- _ => injection H as ?
  | H : InDir _ = InDir _ |- _ => injection H as ?
  | H : InDir _ = InFile _ |- _ => discriminate H
  | H : InFile _ = InDir _ |- _ => discriminate H
  | _ => progress subst
  end.
Ltac names := repeat match goal with H : output_name _ _ |- _ => apply rs_name_spec in H end.
Example ex1_conditions : sound_tree (InDir t1) /\ distinct_outputs (InDir t1) /\ free empty o1 /\ converts up (InDir t1).
Proof.
  unfold t1. split; [|split; [|split]].
  - intros rel es H. places.
    + split; [repeat constructor; cbn; intuition discriminate|]. intros n1 t n2 es2 A B E. places; names; vm_compute in E; discriminate.
    + split; [repeat constructor; cbn; intuition discriminate|]. intros n1 t n2 es2 A B E. places.
  - intros rel n1 u1 n2 u2 o A B C D. names. places; cbn [app] in *; try discriminate; try congruence;
      repeat match goal with H : _ :: _ = _ :: _ |- _ => injection H as ? ? end; subst; try reflexivity; try discriminate.
  - split; [reflexivity|]. split.
    + intros a b E. destruct b; [right; reflexivity|left; reflexivity].
    + split; [intros a b n _ X; discriminate X|]. intros q Q. destruct q; [congruence|reflexivity].
  - intros rel t H. places; eexists _, _; (split; [reflexivity|vm_compute; reflexivity]).
Qed.

(** "Every input file has its output" is false: of two files with one stem, the second replaces
    the output of the first. *)
Theorem C62_every_file_refuted : exists es out d d', sound_tree (InDir es) /\ free d out /\ converts up (InDir es) /\
  process_dir up es out d = (d', Ok tt) /\
  exists name s c q, file_place (InDir es) out name (Some s) q /\ up s = Ok c /\ d' q <> Some (File c).
Proof.
  exists [(lit "a.xsd", InFile (Some (lit "A"))); (lit "a.xml", InFile (Some (lit "B")))], [lit "o"], empty, 
    (fst (process_dir up [(lit "a.xsd", InFile (Some (lit "A"))); (lit "a.xml", InFile (Some (lit "B")))] [lit "o"] empty)).
  split; [|split; [|split; [|split]]].
  - intros rel es H. places. split; [repeat constructor; cbn; intuition discriminate|]. intros n1 t n2 es2 A B E. places.
  - split; [reflexivity|]. split.
    + intros a b E. destruct b; [right; reflexivity|left; reflexivity].
    + split; [intros a b n _ X; discriminate X|]. intros q Q. destruct q; [congruence|reflexivity].
  - intros rel t H. places; eexists _, _; (split; [reflexivity|vm_compute; reflexivity]).
  - vm_compute. reflexivity.
  - exists (lit "a.xsd"), (lit "A"), (lit "A!"), [lit "a.rs"; lit "o"]. split; [|split; [reflexivity|vm_compute; discriminate]].
    exists [], (lit "a.rs"). split; [|split; [apply rs_name_spec; reflexivity|reflexivity]].
    apply (holds_inside _ (lit "a.xsd") (InFile (Some (lit "A"))) []); [left; reflexivity|constructor].
Qed.
Print Assumptions C62_every_file_refuted.
(** "A file that cannot be converted does not affect the others" is false: the files read after
    it have no output, so the order of reading matters. *)
Theorem C62_isolated_refuted : exists es1 es2 out d, sound_tree (InDir es1) /\ sound_tree (InDir es2) /\ distinct_outputs (InDir es1) /\
  same_files (InDir es1) (InDir es2) /\ free d out /\
  exists name s c q, file_place (InDir es1) out name (Some s) q /\ up s = Ok c /\
    fst (process_dir up es1 out d) q = Some (File c) /\ fst (process_dir up es2 out d) q = None.
Proof.
  set (a := (lit "a.xsd", InFile (Some (lit "A")))). set (b := (lit "b.xsd", InFile (Some (lit "!")))).
  exists [a; b], [b; a], [lit "o"], empty. subst a b.
  split; [|split; [|split; [|split; [|split]]]].
  - intros rel es H. places. split; [repeat constructor; cbn; intuition discriminate|]. intros n1 t n2 es2 A B E. places.
  - intros rel es H. places. split; [repeat constructor; cbn; intuition discriminate|]. intros n1 t n2 es2 A B E. places.
  - intros rel n1 u1 n2 u2 o A B C D. names. places; cbn [app] in *; try discriminate;
      repeat match goal with H : _ :: _ = _ :: _ |- _ => injection H as ? ? end; subst; try reflexivity; discriminate.
  - split.
    + intros rel t. split; intros H; places; (eapply (holds_inside _ _ _ []); [cbn; tauto|constructor]).
    + intros rel. split; intros (es & H); places; eexists; apply holds_here.
  - split; [reflexivity|]. split.
    + intros a b E. destruct b; [right; reflexivity|left; reflexivity].
    + split; [intros a b n _ X; discriminate X|]. intros q Q. destruct q; [congruence|reflexivity].
  - exists (lit "a.xsd"), (lit "A"), (lit "A!"), [lit "a.rs"; lit "o"]. split; [|split; [reflexivity|split; vm_compute; reflexivity]].
    exists [], (lit "a.rs"). split; [|split; [apply rs_name_spec; reflexivity|reflexivity]].
    apply (holds_inside _ (lit "a.xsd") (InFile (Some (lit "A"))) []); [left; reflexivity|constructor].
Qed.
Print Assumptions C62_isolated_refuted.
(** Without the condition on files and directories of a tree, processing fails although every
    file can be converted: "x.xsd" is to be written in place of the directory "x.rs". *)
Theorem C62_clash_refuted : exists es out d, free d out /\ distinct_outputs (InDir es) /\ converts up (InDir es) /\
  snd (process_dir up es out d) = Err.
Proof.
  exists [(lit "x.rs", InDir []); (lit "x.xsd", InFile (Some (lit "A")))], [lit "o"], empty. split; [|split; [|split]].
  - split; [reflexivity|]. split.
    + intros a b E. destruct b; [right; reflexivity|left; reflexivity].
    + split; [intros a b n _ X; discriminate X|]. intros q Q. destruct q; [congruence|reflexivity].
  - intros rel n1 u1 n2 u2 o A B C D. places; cbn [app] in *; congruence.
  - intros rel t H. places; eexists _, _; (split; [reflexivity|vm_compute; reflexivity]).
  - vm_compute. reflexivity.
Qed.
Print Assumptions C62_clash_refuted.
