(** Property theorems C71: the comparison of XML texts, [assert_xml_eq]. *)
From Coq Require Import Arith NArith ZArith Bool Ascii String List Lia.
From Verif Require Import Str StrFacts XmlEq.
Import ListNotations.
Local Open Scope string_scope.
Local Open Scope list_scope.
Local Open Scope N_scope.

(** What a reader delivers for a text: events up to the end of the document or the first
    error, which comes at last since a text is finite. *)
Definition final (x : item) : Prop := x = Event EndDocument \/ exists p m, x = Failure p m.
Definition white (x : item) : Prop := exists s, x = Event (Whitespace s).
Inductive delivered : list item -> list item -> Prop :=
| delivered_last x rest : final x -> delivered (x :: rest) [x]
| delivered_next x rest l : ~ final x -> delivered rest l -> delivered (x :: rest) (x :: l).
(** The same without events of white space *)
Inductive kept : list item -> list item -> Prop :=
| kept_nil : kept [] []
| kept_white x l k : white x -> kept l k -> kept (x :: l) k
| kept_other x l k : ~ white x -> kept l k -> kept (x :: l) (x :: k).

Lemma iterate_spec raw l : delivered raw l -> iterate raw = l.
Proof.
  induction 1 as [x rest [->|(p & m & ->)]|x rest l N D IH]; [reflexivity..|].
  destruct x as [e|p m]; [|exfalso; apply N; right; eauto]. destruct e; cbn; rewrite ?IH; try reflexivity. exfalso. apply N. left. reflexivity.
Qed.
Lemma filter_kept l : kept l (filter (fun x => negb (is_whitespace x)) l).
Proof.
  induction l as [|x l IH]; [constructor|]. cbn [filter]. destruct (is_whitespace x) eqn:W; cbn [negb].
  - apply kept_white; [|exact IH]. destruct x as [[]|]; try discriminate. eexists. reflexivity.
  - apply kept_other; [|exact IH]. intros [s ->]. discriminate.
Qed.
Lemma kept_unique l k k' : kept l k -> kept l k' -> k = k'.
Proof.
  intros A. revert k'. induction A; intros k' B; inversion B; subst; try contradiction; auto. f_equal. auto.
Qed.

Lemma all_eq_zip a : forall e, (forall x, In x a -> final x -> exists l, a = l ++ [x] /\ ~ In x l) ->
  a <> [] -> e <> [] ->
  (exists l x, a = l ++ [x] /\ final x /\ forall y, In y l -> ~ final y) ->
  (exists l x, e = l ++ [x] /\ final x /\ forall y, In y l -> ~ final y) ->
  (all_eq (combine a e) = Ok tt <-> a = e).
Proof.
  induction a as [|x a IH]; intros e _ Na Ne Fa Fe; [contradiction|]. destruct e as [|y e]; [contradiction|]. cbn.
  destruct (item_eq_dec x y) as [<-|D]; [|split; [discriminate|intros [= X _]; contradiction]].
  assert (T : forall b, (exists l z, x :: b = l ++ [z] /\ final z /\ forall y, In y l -> ~ final y) ->
     (final x /\ b = []) \/ (~ final x /\ b <> [] /\ exists l z, b = l ++ [z] /\ final z /\ forall y, In y l -> ~ final y)).
  { intros b (l & z & E & F & L). destruct l as [|w l].
    - injection E as -> ->. left. auto.
    - injection E as <- ->. right. split; [apply L; left; reflexivity|]. split; [destruct l; discriminate|]. exists l, z. split; [reflexivity|]. split; [exact F|]. intros v I. apply L. right. exact I. }
  destruct (T _ Fa) as [[Fx ->]|(Nx & Na' & Fa')], (T _ Fe) as [[Fx' ->]|(Nx' & Ne' & Fe')]; try contradiction.
  - split; reflexivity.
  - rewrite IH; auto; [split; [intros ->; reflexivity|intros [= ->]; reflexivity]|].
    intros v I Fv. destruct Fa' as (l & z & -> & Fz & L). exists l. apply in_app_or in I as [I|[<-|[]]]; [exfalso; exact (L v I Fv)|]. split; [reflexivity|]. intros J. exact (L _ J Fz).
Qed.
Lemma kept_final raw l k : delivered raw l -> kept l k -> exists b x, k = b ++ [x] /\ final x /\ forall y, In y b -> ~ final y.
Proof.
  intros D. revert k. induction D as [x rest F|x rest l N D IH]; intros k K; inversion K as [|x' l' k' W K'|x' l' k' W K']; subst.
  - exfalso. destruct W as [s ->]. destruct F as [F|(p & m & F)]; discriminate.
  - inversion K'; subst. exists [], x. split; [reflexivity|]. split; [exact F|]. intros y [].
  - exact (IH _ K').
  - destruct (IH _ K') as (b & z & -> & Fz & L). exists (x :: b), z. split; [reflexivity|]. split; [exact Fz|]. intros y [<-|I]; [exact N|exact (L y I)].
Qed.

(** C71: although the two iterators are zipped, which ignores what one of them has in excess,
    the assertion holds exactly if both texts have the same events, events of white space
    left out: the last event of each cannot be matched by anything but the last event of the
    other. *)
Theorem C71_xml_eq : forall actual expected la le ka ke,
  delivered actual la -> delivered expected le -> kept la ka -> kept le ke ->
  (assert_xml_eq actual expected = Ok tt <-> ka = ke) /\ (assert_xml_eq actual expected = Panic <-> ka <> ke).
Proof.
  intros actual expected la le ka ke Da De Ka Ke.
  assert (E : assert_xml_eq actual expected = Ok tt <-> ka = ke).
  { unfold assert_xml_eq, without_whitespaces. rewrite (iterate_spec _ _ Da), (iterate_spec _ _ De).
    rewrite (kept_unique _ _ _ (filter_kept la) Ka), (kept_unique _ _ _ (filter_kept le) Ke).
    destruct (kept_final _ _ _ Da Ka) as (b & x & Ea & Fx & L). destruct (kept_final _ _ _ De Ke) as (c & y & Ee & Fy & M).
    apply all_eq_zip; eauto 8.
    - intros v I Fv. subst ka. exists b. apply in_app_or in I as [I|[<-|[]]]; [exfalso; exact (L v I Fv)|]. split; [reflexivity|]. intros J. exact (L _ J Fx).
    - subst. destruct b; discriminate.
    - subst. destruct c; discriminate. }
  split; [exact E|]. split.
  - intros P Q. apply E in Q. congruence.
  - intros N. assert (V : forall l, all_eq l = Ok tt \/ all_eq l = Panic).
    { clear. induction l as [|[a e] l IH]; [left; reflexivity|]. cbn. destruct (item_eq_dec a e); auto. }
    destruct (V (combine (without_whitespaces actual) (without_whitespaces expected))) as [V'|V']; [|exact V'].
    exfalso. apply N, E. exact V'.
Qed.
Print Assumptions C71_xml_eq.

Definition nm (s : string) : owned_name := {| on_local := lit s; on_ns := None; on_prefix := None |}.
Definition start (s : string) (atts : list (owned_name * str)) : item := Event (StartElement (nm s) atts []).
Definition doc (l : list item) : list item := Event (StartDocument (lit "UTF-8") None) :: l ++ [Event EndDocument].
(** White space between elements does not matter, a missing element does, also at the end,
    and so does a text that is not well formed. *)
Definition left_ := doc [start "a" []; Event (Whitespace [10; 32]); start "b" []; Event (Characters (lit "1")); Event (EndElement (nm "b")); Event (EndElement (nm "a"))].
Definition right_ := doc [start "a" []; start "b" []; Event (Characters (lit "1")); Event (EndElement (nm "b")); Event (Whitespace [32]); Event (EndElement (nm "a"))].
Definition shorter := doc [start "a" []; start "b" []; Event (Characters (lit "1")); Event (EndElement (nm "b"))].
Definition broken := [Event (StartDocument (lit "UTF-8") None); start "a" []; start "b" []; Failure (0, 9) (lit "Unexpected end of stream")].
Example C71_ex1 : assert_xml_eq left_ right_ = Ok tt /\ left_ <> right_ /\ assert_xml_eq left_ shorter = Panic /\
  assert_xml_eq shorter left_ = Panic /\ assert_xml_eq broken left_ = Panic /\ assert_xml_eq broken broken = Ok tt.
Proof. repeat split; vm_compute; try reflexivity. discriminate. Qed.
Example C71_ex2 : exists l k, delivered left_ l /\ kept l k /\ List.length k = 7%nat.
Proof.
  do 2 eexists. split; [|split; [apply filter_kept|]].
  - unfold left_, doc. cbn [app]. repeat first [apply delivered_last; left; reflexivity|apply delivered_next; [intros [X|(p & m & X)]; discriminate|]].
  - reflexivity.
Qed.

(** C71: two texts of one XML document need not be equal: the order of attributes
    matters. *)
Theorem C71_attribute_order_refuted : exists a b : owned_name * str,
  assert_xml_eq (doc [start "a" [a; b]; Event (EndElement (nm "a"))]) (doc [start "a" [b; a]; Event (EndElement (nm "a"))]) = Panic.
Proof. exists (nm "x", lit "1"), (nm "y", lit "2"). vm_compute. reflexivity. Qed.
Print Assumptions C71_attribute_order_refuted.
(** C71: an element that has no content and one whose content is a space are equal for it, so
    tests with it cannot tell whether white space is written. *)
Theorem C71_white_space_refuted : exists s, s <> [] /\
  assert_xml_eq (doc [start "a" []; Event (Whitespace s); Event (EndElement (nm "a"))]) (doc [start "a" []; Event (EndElement (nm "a"))]) = Ok tt.
Proof. exists [32]. split; [discriminate|]. vm_compute. reflexivity. Qed.
Print Assumptions C71_white_space_refuted.
