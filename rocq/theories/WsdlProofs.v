(** Proofs about the WSDL model. *)
From Coq Require Import Arith NArith ZArith Bool Ascii String List Lia Permutation.
From Verif Require Import Str StrFacts SpecNames Xml Comment Names NamesProofs Entity Parser ParserFacts SpecSchema Link LinkProofs Gen SpecRust SpecGen RustFacts GenProofs GenProofs2 Wsdl SpecWsdl.
Import ListNotations.
Local Open Scope string_scope.
Local Open Scope list_scope.
Notation concat := List.concat.
Arguments lit : simpl never.

(** ** Tags *)
Definition wtag (t : wtype) : string :=
  match t with
  | WBinding => "binding" | WDefinitions => "definitions" | WDocumentation => "documentation" | WImport => "import"
  | WInput => "input" | WFault => "fault" | WMessage => "message" | WOperation => "operation" | WOutput => "output"
  | WPart => "part" | WPortType => "portType" | WTypes => "types" | WUnknown => "?"
  end.
Lemma wtype_tag n t : t <> WUnknown -> (wsdl_type n = t <-> tag (wtag t) n).
Proof.
  unfold wsdl_type, tag. intros U. split.
  - destruct (assoc _ _) as [t'|] eqn:E; [|congruence]. intros ->. apply assoc_In in E. cbn [In] in E.
    repeat (destruct E as [E|E]; [injection E as <- <-; reflexivity|]). destruct E.
  - intros ->. destruct t; try reflexivity; congruence.
Qed.
Lemma wtype_eqb_eq a b : wtype_eqb a b = true <-> a = b.
Proof. split; [destruct a, b; cbn; congruence|intros ->; destruct b; auto]. Qed.
Lemma tagged_tag t n : tagged t n = true <-> tag t n.
Proof. unfold tagged, tag. apply str_eqb_eq. Qed.
Lemma wtype_tagged n t : t <> WUnknown -> wtype_eqb (wsdl_type n) t = tagged (wtag t) n.
Proof.
  intros U. destruct (tagged (wtag t) n) eqn:E.
  - apply wtype_eqb_eq, wtype_tag; auto. apply tagged_tag; auto.
  - destruct (wtype_eqb _ _) eqn:F; auto. apply wtype_eqb_eq, wtype_tag in F; auto. apply tagged_tag in F. congruence.
Qed.
Lemma of_type_elems t n : t <> WUnknown -> filter (of_type t) (children n) = elems (wtag t) n.
Proof.
  intros U. unfold elems, elements. rewrite filter_filter. apply filter_ext. intros c. unfold of_type. rewrite wtype_tagged; auto.
Qed.
Lemma message_new_parts n : message_new n = {| ms_node := n; ms_parts := parts n |}.
Proof. unfold message_new. rewrite of_type_elems by discriminate. reflexivity. Qed.

(** ** Operations *)
Lemma neither_dec n : {neither n} + {tag "input" n \/ tag "output" n}.
Proof.
  unfold neither, tag. destruct (str_eq_dec (tag_name n) (lit "input")); auto.
  destruct (str_eq_dec (tag_name n) (lit "output")); auto.
Qed.
Lemma loop_skip pre cs : Forall neither pre -> op_type_loop (pre ++ cs) = op_type_loop cs.
Proof.
  induction 1 as [|c pre [A B] F IH]; auto. cbn [app op_type_loop].
  destruct (wsdl_type c) eqn:E; auto.
  - apply (wtype_tag c WInput) in E; [contradiction|discriminate].
  - apply (wtype_tag c WOutput) in E; [contradiction|discriminate].
Qed.
Definition head (x : node) (rest : list node) : res op_type :=
  if tagged "input" x then
    match rest with
    | [] => Ok (OneWay x)
    | o :: rest => if tagged "output" o then Ok (RequestResponse x o (faults rest)) else Panic
    end
  else
    match rest with
    | [] => Ok (Notification x)
    | i :: rest => if tagged "input" i then Ok (SolicitResponse x i (faults rest)) else Panic
    end.
Lemma faults_eq l : filter (fun n => wtype_eqb (wsdl_type n) WFault) l = faults l.
Proof. apply filter_ext. intros n. apply (wtype_tagged n WFault). discriminate. Qed.
Lemma loop_head x rest : tag "input" x \/ tag "output" x -> op_type_loop (x :: rest) = head x rest.
Proof.
  intros [T|T]; cbn [op_type_loop].
  - unfold head. rewrite (proj2 (tagged_tag _ _) T). apply (wtype_tag x WInput) in T; [|discriminate]. rewrite T.
    destruct rest as [|o rest]; auto. rewrite faults_eq, (wtype_tagged o WOutput) by discriminate. reflexivity.
  - unfold head. assert (E : tagged "input" x = false).
    { destruct (tagged "input" x) eqn:E; auto. apply tagged_tag in E. unfold tag in *. rewrite T in E. discriminate E. }
    rewrite E. apply (wtype_tag x WOutput) in T; [|discriminate]. rewrite T.
    destruct rest as [|o rest]; auto. rewrite faults_eq, (wtype_tagged o WInput) by discriminate. reflexivity.
Qed.
Lemma loop_cases cs : (Forall neither cs /\ op_type_loop cs = Panic) \/
  exists pre x rest, cs = pre ++ x :: rest /\ Forall neither pre /\ (tag "input" x \/ tag "output" x) /\ op_type_loop cs = head x rest.
Proof.
  induction cs as [|c cs IH]; [left; auto|]. destruct (neither_dec c) as [N|T].
  - assert (E : op_type_loop (c :: cs) = op_type_loop cs) by (apply (loop_skip [c]); auto). rewrite E.
    destruct IH as [[F P]|(pre & x & rest & -> & F & T & H)]; [left; auto|]. right. exists (c :: pre), x, rest. auto.
  - right. exists [], c, cs. do 3 (split; auto). apply loop_head; auto.
Qed.
Lemma in_out n : tag "input" n -> tag "output" n -> False.
Proof. unfold tag. intros -> [=]. Qed.

Lemma classify op : 
  (forall i o fs, op_type_new op = Ok (RequestResponse i o fs) <-> request_response op i o fs) /\
  (forall i, op_type_new op = Ok (OneWay i) <-> one_way op i) /\
  (forall o i fs, op_type_new op = Ok (SolicitResponse o i fs) <-> solicit_response op o i fs) /\
  (forall o, op_type_new op = Ok (Notification o) <-> notification op o) /\
  (op_type_new op = Panic <-> ~ classified op) /\ op_type_new op <> Err.
Proof.
  unfold op_type_new. fold (elements op).
  assert (RR : forall i o fs, op_type_loop (elements op) = Ok (RequestResponse i o fs) <-> request_response op i o fs).
  { intros i o fs. split.
    - destruct (loop_cases (elements op)) as [[_ ->]|(pre & x & rest & E & F & T & ->)]; [discriminate|]. unfold head.
      destruct (tagged "input" x) eqn:X; destruct rest as [|y rest]; try discriminate.
      + destruct (tagged "output" y) eqn:Y; [|discriminate]. intros [= -> -> <-]. apply tagged_tag in X, Y. exists pre, rest. auto.
      + destruct (tagged "input" y); discriminate.
    - intros (pre & rest & -> & F & I & O & ->). rewrite loop_skip, loop_head by auto. unfold head.
      apply tagged_tag in I, O. rewrite I, O. auto. }
  assert (OW : forall i, op_type_loop (elements op) = Ok (OneWay i) <-> one_way op i).
  { intros i. split.
    - destruct (loop_cases (elements op)) as [[_ ->]|(pre & x & rest & E & F & T & ->)]; [discriminate|]. unfold head.
      destruct (tagged "input" x) eqn:X; destruct rest as [|y rest]; try discriminate.
      + intros [= ->]. apply tagged_tag in X. exists pre. auto.
      + destruct (tagged "output" y); discriminate.
      + destruct (tagged "input" y); discriminate.
    - intros (pre & -> & F & I). rewrite loop_skip, loop_head by auto. unfold head. apply tagged_tag in I. rewrite I. auto. }
  assert (SR : forall o i fs, op_type_loop (elements op) = Ok (SolicitResponse o i fs) <-> solicit_response op o i fs).
  { intros o i fs. split.
    - destruct (loop_cases (elements op)) as [[_ ->]|(pre & x & rest & E & F & T & ->)]; [discriminate|]. unfold head.
      destruct (tagged "input" x) eqn:X; destruct rest as [|y rest]; try discriminate.
      + destruct (tagged "output" y); discriminate.
      + destruct (tagged "input" y) eqn:Y; [|discriminate]. intros [= -> -> <-]. apply tagged_tag in Y. exists pre, rest.
        destruct T as [T|T]; [apply tagged_tag in T; congruence|auto].
    - intros (pre & rest & -> & F & O & I & ->). rewrite loop_skip, loop_head by auto. unfold head.
      destruct (tagged "input" o) eqn:X; [apply tagged_tag in X; destruct (in_out o); auto|]. apply tagged_tag in I. rewrite I. auto. }
  assert (NO : forall o, op_type_loop (elements op) = Ok (Notification o) <-> notification op o).
  { intros o. split.
    - destruct (loop_cases (elements op)) as [[_ ->]|(pre & x & rest & E & F & T & ->)]; [discriminate|]. unfold head.
      destruct (tagged "input" x) eqn:X; destruct rest as [|y rest]; try discriminate.
      + destruct (tagged "output" y); discriminate.
      + intros [= ->]. exists pre. destruct T as [T|T]; [apply tagged_tag in T; congruence|auto].
      + destruct (tagged "input" y); discriminate.
    - intros (pre & -> & F & O). rewrite loop_skip, loop_head by auto. unfold head.
      destruct (tagged "input" o) eqn:X; [apply tagged_tag in X; destruct (in_out o); auto|auto]. }
  do 4 (split; auto). assert (NE : op_type_loop (elements op) <> Err).
  { destruct (loop_cases (elements op)) as [[_ ->]|(pre & x & rest & _ & _ & _ & ->)]; [discriminate|]. unfold head.
    destruct (tagged _ x), rest as [|y rest]; try discriminate; destruct (tagged _ y); discriminate. }
  split; auto. split.
  - intros P [(i & o & fs & H)|[(i & H)|[(o & i & fs & H)|(o & H)]]]; [apply RR in H|apply OW in H|apply SR in H|apply NO in H]; congruence.
  - intros N. destruct (op_type_loop (elements op)) as [[]| |] eqn:E; try congruence; destruct N; unfold classified.
    + left. do 3 eexists. apply RR. eauto.
    + right. left. eexists. apply OW. eauto.
    + right. right. left. do 3 eexists. apply SR. eauto.
    + right. right. right. eexists. apply NO. eauto.
Qed.
Lemma classified_ok op : classified op <-> exists t, op_type_new op = Ok t.
Proof.
  destruct (classify op) as (RR & OW & SR & NO & P & NE). split.
  - intros [(i & o & fs & H)|[(i & H)|[(o & i & fs & H)|(o & H)]]]; eexists; [apply RR, H|apply OW, H|apply SR, H|apply NO, H].
  - intros (t & E). unfold classified. destruct t.
    + left. do 3 eexists. apply RR. eauto.
    + right. left. eexists. apply OW. eauto.
    + right. right. left. do 3 eexists. apply SR. eauto.
    + right. right. right. eexists. apply NO. eauto.
Qed.

Lemma rtraverse_no_err {A B} (f : A -> res B) l : (forall x, In x l -> f x <> Err) -> rtraverse f l <> Err.
Proof.
  induction l as [|x l IH]; intros H; cbn [rtraverse]; [discriminate|].
  pose proof (H x (or_introl eq_refl)). destruct (f x); cbn [bind]; try congruence.
  assert (X := IH (fun y Hy => H y (or_intror Hy))). destruct (rtraverse f l); cbn [bind]; congruence.
Qed.
Lemma rtraverse_exists {A B} (f : A -> res B) l : (forall x, In x l -> exists y, f x = Ok y) <-> exists r, rtraverse f l = Ok r.
Proof.
  split.
  - intros H. induction l as [|x l IH]; [exists []; auto|]. destruct (H x (or_introl eq_refl)) as (y & E).
    destruct IH as (r & R); [intros; apply H; right; auto|]. exists (y :: r). cbn [rtraverse]. rewrite E. cbn [bind]. rewrite R. auto.
  - intros (r & R) x I. apply rtraverse_ok in R. destruct (Forall2_in_l _ _ _ _ R I) as (y & _ & E). eauto.
Qed.
Lemma operation_new_ok n o : operation_new n = Ok o <-> op_node o = n /\ op_type_new n = Ok (op_ty o).
Proof.
  unfold operation_new. rewrite rmap_iff. split.
  - intros (t & E & <-). auto.
  - destruct o as [n' t]. cbn. intros (-> & E). eauto.
Qed.
Lemma port_type_new_ok n p : port_type_new n = Ok p <->
  pt_node p = n /\ Forall2 (fun c o => op_node o = c /\ op_type_new c = Ok (op_ty o)) (elems "operation" n) (pt_ops p).
Proof.
  unfold port_type_new. rewrite rmap_iff, of_type_elems by discriminate. cbn [wtag]. split.
  - intros (ops & E & <-). split; auto. cbn. apply rtraverse_ok in E. eapply Forall2_imp; [|exact E]. intros. apply operation_new_ok; auto.
  - destruct p as [n' ops]. cbn. intros (-> & F). exists ops. split; auto. apply rtraverse_ok. eapply Forall2_imp; [|exact F]. intros. apply operation_new_ok; auto.
Qed.
Lemma port_type_new_exists n : (exists p, port_type_new n = Ok p) <-> forall op, In op (elems "operation" n) -> classified op.
Proof.
  unfold port_type_new. rewrite of_type_elems by discriminate. cbn [wtag]. split.
  - intros (p & E) op I. apply rmap_iff in E as (ops & E & _). apply classified_ok.
    destruct (proj2 (rtraverse_exists _ _) (ex_intro _ _ E) op I) as (y & Y). apply operation_new_ok in Y as [_ Y]. eauto.
  - intros H. destruct (proj1 (rtraverse_exists operation_new (elems "operation" n))) as (r & R).
    + intros x I. apply H, classified_ok in I as (t & T). exists {| op_node := x; op_ty := t |}. apply operation_new_ok. auto.
    + rewrite R. cbn. eauto.
Qed.

(** ** Definitions *)
Definition added {A} (t a : string) (mk : node -> res A) (cs : list node) (old new : list (str * A)) : Prop :=
  exists l, new = old ++ l /\ Forall2 (fun c kv => has c a (fst kv) /\ mk c = Ok (snd kv)) (filter (tagged t) cs) l /\
    NoDup (map fst l) /\ forall k, In k (map fst l) -> ~ In k (map fst old).
Lemma added_skip {A} t a (mk : node -> res A) c cs old new : tagged t c = false -> (added t a mk (c :: cs) old new <-> added t a mk cs old new).
Proof. intros E. unfold added. cbn [filter]. rewrite E. tauto. Qed.
Lemma added_take {A} t a (mk : node -> res A) c cs old new : tagged t c = true ->
  (added t a mk (c :: cs) old new <-> exists k v mid, has c a k /\ mk c = Ok v /\ insert_new k v old = Ok mid /\ added t a mk cs mid new).
Proof.
  intros E. unfold added. cbn [filter]. rewrite E. split.
  - intros (l & -> & F & D & X). inversion F as [|? [k v] ? l' [K M] F']; subst. cbn [fst snd map] in *.
    exists k, v, (old ++ [(k, v)]). do 2 (split; auto). unfold insert_new. rewrite (proj2 (assoc_None k old)) by (apply X; left; auto).
    split; auto. exists l'. rewrite <- app_assoc. inversion D; subst. do 3 (split; auto).
    intros j J. rewrite map_app, in_app_iff. intros [H|[H|[]]]; [apply (X j); [right; auto|auto]|]. cbn in H. subst. contradiction.
  - intros (k & v & mid & K & M & I & l & -> & F & D & X). unfold insert_new in I. destruct (assoc k old) eqn:N; [discriminate|].
    injection I as <-. exists ((k, v) :: l). rewrite <- app_assoc. split; [reflexivity|]. split; [constructor; auto|]. cbn [map fst].
    assert (Y : forall j, In j (map fst l) -> ~ In j (map fst old) /\ j <> k).
    { intros j J. specialize (X j J). rewrite map_app, in_app_iff in X. cbn in X. split; [tauto|]. intros ->. apply X. auto. }
    split; [constructor; auto; intros J; apply Y in J; tauto|]. intros j [<-|J]; [apply assoc_None; auto|apply Y; auto].
Qed.
Lemma added_nil {A} t a (mk : node -> res A) old new : added t a mk [] old new <-> new = old.
Proof.
  unfold added. cbn [filter]. split.
  - intros (l & -> & F & _). inversion F. apply app_nil_r.
  - intros ->. exists []. rewrite app_nil_r. split; auto. split; auto. split; [apply NoDup_nil|intros k []].
Qed.

Definition collects (cs : list node) (d d' : definitions) : Prop :=
  df_node d' = df_node d /\ df_types d' = df_types d ++ filter (tagged "types") cs /\
  added "import" "namespace" Ok cs (df_imports d) (df_imports d') /\
  added "message" "name" (fun c => Ok (message_new c)) cs (df_messages d) (df_messages d') /\
  added "portType" "name" port_type_new cs (df_ports d) (df_ports d') /\
  added "binding" "name" Ok cs (df_bindings d) (df_bindings d').
Lemma other_tag c t t' : wsdl_type c = t -> t' <> WUnknown -> t <> t' -> tagged (wtag t') c = false.
Proof.
  intros E U N. destruct (tagged (wtag t') c) eqn:T; auto. apply tagged_tag in T. apply wtype_tag in T; auto. congruence.
Qed.
Lemma same_tag c t : wsdl_type c = t -> t <> WUnknown -> tagged (wtag t) c = true.
Proof. intros E U. apply tagged_tag, wtype_tag; auto. Qed.
Lemma add_children_ok cs : forall d d', add_children d cs = Ok d' <-> collects cs d d'.
Proof.
  induction cs as [|c cs IH]; intros d d'; cbn [add_children].
  - unfold collects. rewrite !added_nil. cbn [filter]. rewrite app_nil_r. destruct d, d'. cbn. split.
    + intros [= -> -> -> -> -> ->]. auto 10.
    + intros (-> & -> & -> & -> & -> & ->). auto.
  - rewrite bind_ok. setoid_rewrite IH. clear IH. unfold add_child.
    assert (O : forall t', t' <> WUnknown -> wsdl_type c <> t' -> tagged (wtag t') c = false) by (intros; eapply other_tag; eauto).
    pose proof (O WImport) as OI. pose proof (O WMessage) as OM. pose proof (O WPortType) as OP. pose proof (O WBinding) as OB. pose proof (O WTypes) as OT.
    pose proof (same_tag c _ eq_refl) as S. cbn [wtag] in *. clear O.
    unfold collects. cbn [filter]. 
    destruct (wsdl_type c) eqn:W; cbn [wtag] in S;
    repeat match goal with
    | X : _ -> ?a <> ?b -> tagged _ _ = false |- _ => 
        first [ specialize (X ltac:(discriminate) ltac:(discriminate)) | clear X ]
    end;
    try (specialize (S ltac:(discriminate)));
    repeat match goal with
    | X : tagged ?t c = false |- context [added ?t ?a ?mk (c :: cs) ?o ?n] => rewrite (added_skip t a mk c cs o n X)
    | X : tagged ?t c = true |- context [added ?t ?a ?mk (c :: cs) ?o ?n] => rewrite (added_take t a mk c cs o n X)
    | X : tagged "types" c = _ |- context [if tagged "types" c then _ else _] => rewrite X
    end;
    try (split; [intros (x & [= <-] & H); exact H|intros H; eexists; split; [reflexivity|exact H]]).
    + (* binding *) split.
      * intros (x & E & H). apply bind_ok in E as (k & K & E). apply bind_ok in E as (m & M & [= <-]). apply expect_ok in K. cbn [df_node df_imports df_types df_messages df_ports df_bindings] in H.
        destruct H as (A1 & A2 & A3 & A4 & A5 & A6). do 5 (split; auto). exists k, c, m. auto.
      * intros (A1 & A2 & A3 & A4 & A5 & k & v & m & K & [= <-] & M & A6). unfold name_of. rewrite K. cbn [expect bind]. rewrite M. cbn [bind].
        eexists. split; [reflexivity|]. cbn. auto 10.
    + (* import *) split.
      * intros (x & E & H). apply bind_ok in E as (k & K & E). apply bind_ok in E as (m & M & [= <-]). apply expect_ok in K. cbn [df_node df_imports df_types df_messages df_ports df_bindings] in H.
        destruct H as (A1 & A2 & A3 & A4 & A5 & A6). do 2 (split; auto). split; [exists k, c, m; auto|auto].
      * intros (A1 & A2 & (k & v & m & K & [= <-] & M & A3) & A4 & A5 & A6). rewrite K. cbn [expect bind]. rewrite M. cbn [bind].
        eexists. split; [reflexivity|]. cbn. auto 10.
    + (* message *) split.
      * intros (x & E & H). apply bind_ok in E as (k & K & E). apply bind_ok in E as (m & M & [= <-]). apply expect_ok in K. cbn [df_node df_imports df_types df_messages df_ports df_bindings] in H.
        destruct H as (A1 & A2 & A3 & A4 & A5 & A6). do 3 (split; auto). split; [exists k, (message_new c), m; auto|auto].
      * intros (A1 & A2 & A3 & (k & v & m & K & [= <-] & M & A4) & A5 & A6). unfold name_of. rewrite K. cbn [expect bind]. rewrite M. cbn [bind].
        eexists. split; [reflexivity|]. cbn. auto 10.
    + (* portType *) split.
      * intros (x & E & H). apply bind_ok in E as (p & P & E). apply bind_ok in E as (k & K & E). apply bind_ok in E as (m & M & [= <-]). apply expect_ok in K. cbn [df_node df_imports df_types df_messages df_ports df_bindings] in H.
        destruct H as (A1 & A2 & A3 & A4 & A5 & A6). do 4 (split; auto). split; [exists k, p, m; auto|auto].
      * intros (A1 & A2 & A3 & A4 & (k & v & m & K & P & M & A5) & A6). rewrite P. unfold name_of. cbn [bind]. rewrite K. cbn [expect bind]. rewrite M. cbn [bind].
        eexists. split; [reflexivity|]. cbn. auto 10.
    + (* types *) split.
      * intros (x & [= <-] & H). cbn [df_node df_imports df_types df_messages df_ports df_bindings] in H. rewrite <- app_assoc in H. exact H.
      * intros H. eexists. split; [reflexivity|]. cbn [df_node df_imports df_types df_messages df_ports df_bindings]. rewrite <- app_assoc. exact H.
Qed.

Lemma assoc_nodup {A} k (v : A) l : NoDup (map fst l) -> In (k, v) l -> assoc k l = Some v.
Proof.
  induction l as [|[k' w] l IH]; cbn [map fst In assoc]; [tauto|]. intros D. inversion D; subst. intros [[= -> ->]|I].
  - rewrite str_eqb_refl. auto.
  - destruct (str_eqb_spec k k') as [->|]; auto. destruct H1. apply (in_map fst) in I. exact I.
Qed.
Lemma added_lookup {A} t a (mk : node -> res A) cs new k v : added t a mk cs [] new ->
  (assoc k new = Some v <-> exists c, In c (filter (tagged t) cs) /\ has c a k /\ mk c = Ok v).
Proof.
  intros (l & -> & F & D & _). cbn [app]. split.
  - intros E. apply assoc_In in E. destruct (Forall2_in_r _ _ _ _ F E) as (c & I & K & M). eauto.
  - intros (c & I & K & M). destruct (Forall2_in_l _ _ _ _ F I) as ([k' v'] & J & K' & M'). cbn [fst snd] in *.
    unfold has in *. rewrite K in K'. rewrite M in M'. injection K' as <-. injection M' as <-. apply assoc_nodup; auto.
Qed.
Lemma added_keyed {A} t a (mk : node -> res A) root : (exists new, added t a mk (elements root) [] new) <->
  keyed root t a /\ forall c, In c (elems t root) -> exists v, mk c = Ok v.
Proof.
  unfold keyed, added. fold (elems t root). split.
  - intros (new & l & -> & F & D & _).
    assert (E : map (fun c => attribute c (lit a)) (elems t root) = map Some (map fst l)).
    { clear D. induction F as [|c [k v] cs l [K M] F IH]; auto. cbn [map fst snd] in *. rewrite IH. unfold has in K. rewrite K. auto. }
    split; [split|].
    + intros c I. destruct (Forall2_in_l _ _ _ _ F I) as (kv & _ & K & _). eexists. eauto.
    + rewrite E. clear - D. induction D as [|k ks N D IH]; cbn; constructor; auto. rewrite in_map_iff. intros (x & [= ->] & I). contradiction.
    + intros c I. destruct (Forall2_in_l _ _ _ _ F I) as (kv & _ & _ & M). eauto.
  - intros [[P D] M]. assert (X : exists l, Forall2 (fun c kv => has c a (fst kv) /\ mk c = Ok (snd kv)) (elems t root) l).
    { clear D. induction (elems t root) as [|c cs IH]; [exists []; auto|]. destruct (P c (or_introl eq_refl)) as (k & K).
      destruct (M c (or_introl eq_refl)) as (v & V). destruct IH as (l & F); [intros; apply P; right; auto|intros; apply M; right; auto|].
      exists ((k, v) :: l). auto. }
    destruct X as (l & F). exists l, l. do 2 (split; auto). split; [|intros k _ []].
    assert (E : map (fun c => attribute c (lit a)) (elems t root) = map Some (map fst l)).
    { clear D P M. induction F as [|c [k v] cs l [K M] F IH]; auto. cbn [map fst snd] in *. rewrite IH. unfold has in K. rewrite K. auto. }
    rewrite E in D. clear - D. induction (map fst l) as [|k ks IH]; [constructor|]. cbn in D. inversion D; subst. constructor; auto.
    intros I. apply H1. apply in_map. auto.
Qed.

Definition none_yet (root : node) : definitions :=
  {| df_node := root; df_imports := []; df_types := []; df_messages := []; df_ports := []; df_bindings := [] |}.
Lemma definitions_ok root d : definitions_new root = Ok d <-> collects (elements root) (none_yet root) d.
Proof. apply add_children_ok. Qed.
Lemma insert_no_err {A} k (v : A) m : insert_new k v m <> Err.
Proof. unfold insert_new. destruct (assoc k m); discriminate. Qed.
Lemma expect_no_err {A} (o : option A) : expect o <> Err.
Proof. destruct o; discriminate. Qed.
Lemma bind_no_err {A B} (r : res A) (f : A -> res B) : r <> Err -> (forall a, f a <> Err) -> bind r f <> Err.
Proof. destruct r; cbn; auto; congruence. Qed.
Lemma port_no_err n : port_type_new n <> Err.
Proof.
  unfold port_type_new. assert (X : rtraverse operation_new (filter (of_type WOperation) (children n)) <> Err).
  { apply rtraverse_no_err. intros c _. unfold operation_new. destruct (classify c) as (_ & _ & _ & _ & _ & E). destruct (op_type_new c); cbn; congruence. }
  destruct (rtraverse _ _); cbn; congruence.
Qed.
Lemma definitions_no_err root : definitions_new root <> Err.
Proof.
  unfold definitions_new. generalize {| df_node := root; df_imports := []; df_types := []; df_messages := []; df_ports := []; df_bindings := [] |} as d.
  induction (filter is_element (children root)) as [|c cs IH]; intros d; cbn [add_children]; [discriminate|].
  apply bind_no_err; auto. unfold add_child, name_of.
  destruct (wsdl_type c); try discriminate; repeat (apply bind_no_err; [first [apply expect_no_err|apply insert_no_err|apply port_no_err]|intros ?]); discriminate.
Qed.
Lemma definitions_accepted root : ((exists d, definitions_new root = Ok d) <-> accepted root) /\
  (definitions_new root = Panic <-> ~ accepted root).
Proof.
  assert (A : (exists d, definitions_new root = Ok d) <-> accepted root).
  { split.
    - intros (d & E). apply definitions_ok in E as (_ & _ & I & M & P & B). cbn [df_imports df_messages df_ports df_bindings none_yet] in *.
      apply (ex_intro (fun new => _ new)) in I, M, P, B. apply added_keyed in I as [I _], M as [M _], P as [P Q], B as [B _].
      do 4 (split; auto). intros p op J K. exact (proj1 (port_type_new_exists p) (Q p J) op K).
    - intros (I & M & P & B & C).
      assert (I' := proj2 (added_keyed "import" "namespace" Ok root) (conj I (fun c _ => ex_intro _ c eq_refl))).
      assert (M' := proj2 (added_keyed "message" "name" (fun c => Ok (message_new c)) root) (conj M (fun c _ => ex_intro _ _ eq_refl))).
      assert (P' := proj2 (added_keyed "portType" "name" port_type_new root) (conj P (fun c J => proj2 (port_type_new_exists c) (fun op => C c op J)))).
      assert (B' := proj2 (added_keyed "binding" "name" Ok root) (conj B (fun c _ => ex_intro _ c eq_refl))).
      destruct I' as (i & I'), M' as (m & M'), P' as (p & P'), B' as (b & B').
      exists {| df_node := root; df_imports := i; df_types := elems "types" root; df_messages := m; df_ports := p; df_bindings := b |}.
      apply definitions_ok. do 5 (split; auto). }
  split; auto. pose proof (definitions_no_err root). destruct (definitions_new root) as [d| |] eqn:E; try congruence.
  - split; [discriminate|]. intros N. destruct N. apply A. eauto.
  - split; auto. intros _ X. apply A in X as (d & X). discriminate.
Qed.

Definition parsed_port (n : node) (p : port_type) : Prop :=
  pt_node p = n /\ Forall2 (fun c o => op_node o = c /\ op_type_new c = Ok (op_ty o)) (elems "operation" n) (pt_ops p).
Lemma definitions_lookup root d : definitions_new root = Ok d ->
  df_node d = root /\ df_types d = elems "types" root /\
  (forall k c, assoc k (df_imports d) = Some c <-> In c (elems "import" root) /\ has c "namespace" k) /\
  (forall k c, assoc k (df_bindings d) = Some c <-> In c (elems "binding" root) /\ has c "name" k) /\
  (forall k m, assoc k (df_messages d) = Some m <-> In (ms_node m) (elems "message" root) /\ has (ms_node m) "name" k /\ ms_parts m = parts (ms_node m)) /\
  (forall k p, assoc k (df_ports d) = Some p <-> In (pt_node p) (elems "portType" root) /\ has (pt_node p) "name" k /\ parsed_port (pt_node p) p) /\
  map (fun e => pt_node (snd e)) (df_ports d) = elems "portType" root /\ Forall (fun e => parsed_port (pt_node (snd e)) (snd e)) (df_ports d).
Proof.
  intros E. apply definitions_ok in E as (N & T & I & M & P & B). cbn [df_node df_types df_imports df_messages df_ports df_bindings none_yet app] in *.
  do 2 (split; [auto|]). split; [|split; [|split; [|split; [|]]]].
  - intros k c. rewrite (added_lookup _ _ _ _ _ _ _ I). fold (elems "import" root). split; [intros (x & A & H & [= ->]); auto|intros [A H]; eauto].
  - intros k c. rewrite (added_lookup _ _ _ _ _ _ _ B). fold (elems "binding" root). split; [intros (x & A & H & [= ->]); auto|intros [A H]; eauto].
  - intros k m. rewrite (added_lookup _ _ _ _ _ _ _ M). fold (elems "message" root). setoid_rewrite message_new_parts. split.
    + intros (x & A & H & [= <-]). auto.
    + destruct m as [n ps]. cbn [ms_node ms_parts]. intros (A & H & ->). eauto.
  - intros k p. rewrite (added_lookup _ _ _ _ _ _ _ P). fold (elems "portType" root). setoid_rewrite port_type_new_ok. split.
    + intros (x & A & H & <- & F). split; auto. split; auto. split; auto.
    + intros (A & H & _ & F). exists (pt_node p). auto.
  - destruct P as (l & Q & F & _). fold (elems "portType" root) in F. cbn [app] in Q. rewrite Q. clear - F. 
    induction F as [|c [k p] cs l [K X] F IH]; [split; constructor|]. cbn [map fst snd] in *. apply port_type_new_ok in X as [<- X]. destruct IH as [-> IH].
    split; auto. constructor; auto. split; auto.
Qed.
Lemma definitions_ports root d order : definitions_new root = Ok d -> Permutation order (map snd (df_ports d)) ->
  Permutation (map pt_node order) (elems "portType" root) /\ Forall (fun p => parsed_port (pt_node p) p) order.
Proof.
  intros E P. apply definitions_lookup in E as (_ & _ & _ & _ & _ & _ & <- & F). split.
  - rewrite <- (map_map snd pt_node). apply Permutation_map. auto.
  - apply Forall_forall. intros p I. apply (Permutation_in _ P) in I. apply in_map_iff in I as (e & <- & J). rewrite Forall_forall in F. auto.
Qed.

(** ** Functions *)
Section Fn.
Context (root : node) (d : definitions) (D : definitions_new root = Ok d).
Lemma message_lookup q : 
  match assoc (last_segment 58 q) (df_messages d) with
  | Some m => message_of root q (ms_node m) /\ ms_parts m = parts (ms_node m)
  | None => no_message root q
  end.
Proof.
  destruct (definitions_lookup _ _ D) as (_ & _ & _ & _ & M & _). destruct (local_total q) as (k & L). rewrite (last_segment_local _ _ L).
  destruct (assoc k (df_messages d)) as [m|] eqn:E.
  - apply M in E as (A & B & C). split; auto. exists k. auto.
  - intros m (k' & L' & I & H). assert (k' = k) by (apply last_segment_local in L, L'; congruence). subst k'.
    enough (X : assoc k (df_messages d) = Some {| ms_node := m; ms_parts := parts m |}) by congruence. apply M. cbn [ms_node ms_parts]. auto.
Qed.
Lemma message_unique q m m' : message_of root q m -> message_of root q m' -> m = m'.
Proof.
  destruct (definitions_lookup _ _ D) as (_ & _ & _ & _ & M & _). intros (k & L & I & H) (k' & L' & I' & H').
  assert (k' = k) by (apply last_segment_local in L, L'; congruence). subst k'.
  assert (X : assoc k (df_messages d) = Some {| ms_node := m; ms_parts := parts m |}) by (apply M; cbn [ms_node ms_parts]; auto).
  assert (Y : assoc k (df_messages d) = Some {| ms_node := m'; ms_parts := parts m' |}) by (apply M; cbn [ms_node ms_parts]; auto). congruence.
Qed.
Definition transport : str * str := (lit "transport", lit "T").
Lemma param_new_ok p n t : param_new p = Ok (n, t) <-> has p "name" n /\ part_type p t.
Proof.
  unfold param_new, name_of, part_type, has, absent. destruct (attribute p (lit "name")) as [x|]; cbn [expect bind]; [|split; [discriminate|intros [[=] _]]].
  destruct (attribute p (lit "element")) as [e|]; cbn [or_else expect bind].
  - split; [intros [= <- <-]; auto|]. intros ([= <-] & [[= <-]|([=] & _)]). auto.
  - destruct (attribute p (lit "type")) as [e|]; cbn [expect bind].
    + split; [intros [= <- <-]; auto|]. intros ([= <-] & [[=]|(_ & [= <-])]). auto.
    + split; [discriminate|]. intros (_ & [[=]|(_ & [=])]).
Qed.
Lemma params_ok q args : get_input_params (assoc (last_segment 58 q) (df_messages d)) = Ok args <->
  exists ps, args = transport :: ps /\ request_params root q ps.
Proof.
  pose proof (message_lookup q) as L. unfold get_input_params. fold transport. destruct (assoc _ _) as [m|].
  - destruct L as [L E]. rewrite E.
    assert (Many : List.length (parts (ms_node m)) <> 1 -> 
      (bind (rtraverse param_new (parts (ms_node m))) (fun l => Ok (transport :: l)) = Ok args <-> exists ps, args = transport :: ps /\ request_params root q ps)).
    { intros N. rewrite bind_ok. split.
      - intros (l & R & [= <-]). exists l. split; auto. apply (rp_parts _ _ (ms_node m)); auto. apply rtraverse_ok in R.
        eapply Forall2_imp; [|exact R]. intros p [n t] _. apply param_new_ok.
      - intros (ps & -> & R). exists ps. split; auto. inversion R as [H|m' p t H P T|m' l H P F]; subst.
        + destruct (H _ L).
        + assert (m' = ms_node m) by (eapply message_unique; eauto). subst m'. rewrite P in N. destruct N. auto.
        + assert (m' = ms_node m) by (eapply message_unique; eauto). subst m'. apply rtraverse_ok. eapply Forall2_imp; [|exact F]. intros p [n t] _. apply param_new_ok. }
    destruct (parts (ms_node m)) as [|p [|p' ps]] eqn:Q; [apply Many; discriminate| |apply Many; discriminate].
    clear Many. rewrite bind_ok. split.
    + intros (t & T & [= <-]). apply expect_ok in T. eexists. split; [reflexivity|]. eapply rp_single; eauto.
    + intros (ps & -> & R). inversion R as [H|m' p' t H P T|m' l H P F]; subst.
      * destruct (H _ L).
      * assert (m' = ms_node m) by (eapply message_unique; eauto). subst m'. rewrite Q in P. injection P as <-. exists t. split; auto. apply expect_ok. auto.
      * assert (m' = ms_node m) by (eapply message_unique; eauto). subst m'. rewrite Q in P. destruct P. auto.
  - split.
    + intros [= <-]. exists []. split; auto. apply rp_missing. auto.
    + intros (ps & -> & R). inversion R as [H|m' p t H P T|m' l H P F]; subst; auto; destruct (L m'); auto.
Qed.
Lemma return_ok q t : return_type (assoc (last_segment 58 q) (df_messages d)) = Ok t <-> response_type root q t.
Proof.
  pose proof (message_lookup q) as L. unfold return_type. destruct (assoc _ _) as [m|].
  - destruct L as [L E]. rewrite E. destruct (parts (ms_node m)) as [|p ps] eqn:Q.
    + split; [discriminate|]. intros R. inversion R as [H|m' p ps t' H P T|m' p ps H P T]; subst; [destruct (H _ L)| |];
        assert (m' = ms_node m) by (eapply message_unique; eauto); subst; congruence.
    + split.
      * intros [= <-]. destruct (attribute p (lit "element")) eqn:A; [eapply rt_element|eapply rt_untyped]; eauto.
      * intros R. inversion R as [H|m' p' ps' t' H P T|m' p' ps' H P T]; subst; [destruct (H _ L)| |];
        assert (m' = ms_node m) by (eapply message_unique; eauto); subst; rewrite Q in P; injection P as <- <-; unfold has, absent in T; rewrite T; auto.
  - split.
    + intros [= <-]. apply rt_missing. auto.
    + intros R. inversion R as [H|m' p ps t' H P T|m' p ps H P T]; subst; auto; destruct (L m'); auto.
Qed.
Lemma find_map_doc l : match find_map (fun n => if wtype_eqb (wsdl_type n) WDocumentation then text n else None) l with
  | Some e => exists a x r, l = a ++ x :: r /\ documentation_text x e /\ forall y e', In y a -> ~ documentation_text y e'
  | None => forall y e', In y l -> ~ documentation_text y e'
  end.
Proof.
  induction l as [|n l IH]; cbn [find_map]; [intros y e' []|]. rewrite (wtype_tagged n WDocumentation) by discriminate. cbn [wtag].
  assert (X : match (if tagged "documentation" n then text n else None) with Some e => documentation_text n e | None => forall e, ~ documentation_text n e end).
  { unfold documentation_text. destruct (tagged "documentation" n) eqn:T.
    - apply tagged_tag in T. destruct n as [tg at_ ns cs|s|]; [|discriminate T|discriminate T]. cbn [text children].
      destruct cs as [|[tg' at' ns' cs'|s|] cs]; try (intros e (_ & r & [=])). eauto.
    - intros e (T' & _). apply tagged_tag in T'. congruence. }
  destruct (if tagged "documentation" n then text n else None) as [e|].
  - exists [], n, l. auto.
  - destruct (find_map _ l) as [e|].
    + destruct IH as (a & x & r & -> & H & N). exists (n :: a), x, r. do 2 (split; auto). intros y e' [<-|I]; auto.
    + intros y e' [<-|I]; auto.
Qed.
Lemma doc_ok o c : operation_doc o = c <-> op_documented (op_node o) c.
Proof.
  unfold operation_doc. pose proof (find_map_doc (children (op_node o))) as X. set (e := find_map _ _) in *. clearbody e. split.
  - intros <-. destruct e; exact X.
  - destruct e as [e|], c as [c|]; cbn [op_documented]; auto.
    + intros (a' & x' & r' & E' & H' & N'). destruct X as (a & x & r & E & H & N). rewrite E in E'.
      assert (Y : x = x').
      { revert a' E' N'. clear - H H' N. induction a as [|y a IH]; intros [|y' a'] E' N'; cbn in E'; injection E' as E0 E1.
        - auto.
        - subst. destruct (N' y' e); [left|]; auto.
        - subst. destruct (N x' c); [left|]; auto.
        - apply IH with a'; auto. + intros z e' I. apply N. right. auto. + intros z e' I. apply N'. right. auto. }
      subst x'. destruct H as (_ & r1 & C1), H' as (_ & r2 & C2). rewrite C1 in C2. congruence.
    + intros N'. destruct X as (a & x & r & E & H & N). destruct (N' x e); auto. rewrite E. apply in_or_app. right. left. auto.
    + intros (a & x & r & E & H & N). destruct (X x c); auto. rewrite E. apply in_or_app. right. left. auto.
Qed.
Definition as_function (f : func) : function :=
  {| fn_args := transport :: f_params f; fn_return := f_result f; fn_doc := f_doc f; fn_name := f_name f |}.
Lemma function_ok o g : op_type_new (op_node o) = Ok (op_ty o) ->
  (function_new o d = Ok g <-> exists f, op_func root (op_node o) f /\ g = as_function f).
Proof.
  intros T. destruct (classify (op_node o)) as (RR & OW & SR & NO & _). unfold function_new, get_message_by_param. split.
  - destruct (op_ty o) as [i out fs|i|out i fs|out] eqn:E; try discriminate.
    + apply RR in T. rewrite bind_ok. intros (im & A & H). apply bind_ok in A as (qi & Qi & [= <-]). apply expect_ok in Qi.
      apply bind_ok in H as (om & A & H). apply bind_ok in A as (qo & Qo & [= <-]). apply expect_ok in Qo.
      apply bind_ok in H as (args & A & H). apply params_ok in A as (ps & -> & R). apply bind_ok in H as (t & A & H). apply return_ok in A.
      apply bind_ok in H as (n & B & [= <-]). apply expect_ok in B.
      exists {| f_name := n; f_params := ps; f_result := t; f_doc := operation_doc o |}. split; [|reflexivity].
      eapply of_request_response; eauto. apply doc_ok. auto.
    + apply OW in T. rewrite bind_ok. intros (im & A & H). apply bind_ok in A as (qi & Qi & [= <-]). apply expect_ok in Qi.
      apply bind_ok in H as (args & A & H). apply params_ok in A as (ps & -> & R). cbn [return_type bind] in H.
      apply bind_ok in H as (n & B & [= <-]). apply expect_ok in B.
      exists {| f_name := n; f_params := ps; f_result := []; f_doc := operation_doc o |}. split; [|reflexivity].
      eapply of_one_way; eauto. apply doc_ok. auto.
  - intros (f & F & ->). destruct F as [i out fs qi qo n ps t c R Hi Ho Hn P Q C|i qi n ps c R Hi Hn P C].
    + apply RR in R. rewrite R in T. injection T as <-. rewrite Hi, Ho. cbn [expect bind].
      rewrite (proj2 (params_ok qi (transport :: ps))) by eauto. cbn [bind]. rewrite (proj2 (return_ok qo t)) by auto. cbn [bind].
      unfold name_of. rewrite Hn. cbn [expect bind]. rewrite (proj2 (doc_ok o c)) by auto. reflexivity.
    + apply OW in R. rewrite R in T. injection T as <-. rewrite Hi. cbn [expect bind].
      rewrite (proj2 (params_ok qi (transport :: ps))) by eauto. cbn [return_type bind].
      unfold name_of. rewrite Hn. cbn [expect bind]. rewrite (proj2 (doc_ok o c)) by auto. reflexivity.
Qed.
Lemma function_no_err o : function_new o d <> Err.
Proof.
  assert (B : forall im om, bind (get_input_params im) (fun args => bind (return_type om) (fun ret => bind (name_of (op_node o)) (fun n =>
      Ok {| fn_args := args; fn_return := ret; fn_doc := operation_doc o; fn_name := n |}))) <> Err).
  { intros im om. apply bind_no_err.
    - unfold get_input_params. destruct im as [m|]; [|discriminate]. 
      assert (X : rtraverse param_new (ms_parts m) <> Err).
      { apply rtraverse_no_err. intros p _. unfold param_new, name_of. repeat (apply bind_no_err; [apply expect_no_err|intros ?]). discriminate. }
      destruct (ms_parts m) as [|p [|p' ps]]; apply bind_no_err; auto using expect_no_err; discriminate.
    - intros args. apply bind_no_err.
      + destruct om as [m|]; [|discriminate]. cbn. destruct (ms_parts m); discriminate.
      + intros t. apply bind_no_err; [apply expect_no_err|discriminate]. }
  unfold function_new, get_message_by_param. destruct (op_ty o); try discriminate.
  - apply bind_no_err; [apply bind_no_err; [apply expect_no_err|discriminate]|]. intros im. apply bind_no_err; [apply bind_no_err; [apply expect_no_err|discriminate]|]. intros om. apply B.
  - apply bind_no_err; [apply bind_no_err; [apply expect_no_err|discriminate]|]. intros im. apply B.
Qed.
Lemma function_panic o : op_type_new (op_node o) = Ok (op_ty o) ->
  (function_new o d = Panic <-> forall f, ~ op_func root (op_node o) f).
Proof.
  intros T. pose proof (function_no_err o). pose proof (fun g => function_ok o g T) as F. destruct (function_new o d) as [g| |] eqn:E; try congruence.
  - split; [discriminate|]. intros N. destruct (proj1 (F g) eq_refl) as (f & X & _). destruct (N f X).
  - split; auto. intros _ f X. enough (Panic = Ok (as_function f)) by discriminate. apply F. eauto.
Qed.
Lemma op_func_unique op f f' : classified op -> op_func root op f -> op_func root op f' -> f = f'.
Proof.
  intros C A B. apply classified_ok in C as (t & T). set (o := {| op_node := op; op_ty := t |}).
  assert (X : function_new o d = Ok (as_function f)) by (apply function_ok; cbn; eauto).
  assert (Y : function_new o d = Ok (as_function f')) by (apply function_ok; cbn; eauto).
  rewrite X in Y. injection Y. destruct f, f'. cbn. congruence.
Qed.
End Fn.

(** ** The text *)
Section Text.
Context (u : uni) (tns : option namespace).
Notation tt := (fun q => default_format_type u q tns).
Ltac pc s := eapply (closed_app u (lit s) _ (rust u s)); [reflexivity|].
Ltac nlc := apply (closed_skip u nl); [reflexivity|].
Lemma opened_sep sep s l ts : closed u sep s -> stops u sep -> l <> [] -> Forall2 (opened u) l ts -> opened u (join sep l) (separated s ts).
Proof.
  intros S T N F. revert N. induction F as [|x y l ts H F IH]; [congruence|]. intros _. destruct l as [|x' l].
  - inversion F; subst. auto.
  - destruct ts as [|y' ts]; [inversion F|]. change (join sep (x :: x' :: l)) with (x ++ sep ++ join sep (x' :: l)).
    change (separated s (y :: y' :: ts)) with (y ++ s ++ separated s (y' :: ts)).
    apply opened_opened; auto using stops_app. apply closed_open_app; auto. apply IH. discriminate.
Qed.
Lemma type_opened q : sane_type q -> opened u (tt q) (lexemes u (tt q)).
Proof. intros S. apply smooth_opened, default_type_smooth. auto. Qed.
Lemma no_prefix_sane q : ~ In 58%N q -> sane_type q.
Proof. intros N p l Q. destruct (no_colon_qualified _ _ _ N Q). Qed.
Lemma transport_sane : sane_type (lit "transport::Transport").
Proof. apply (sane_prefixed (lit "transport")); [intros I; vm_compute in I; repeat (destruct I as [I|I]; [discriminate I|]); exact I|apply smoothb_ok; reflexivity]. Qed.
Lemma T_sane : sane_type (lit "T").
Proof. apply no_prefix_sane. intros [[=]|[]]. Qed.
Lemma function_text f : sane_func u sane_type f ->
  closed u (generate_function u (as_function f) tns) (func_tokens u tt (format_name u) f).
Proof.
  intros [R P]. unfold generate_function, as_function, func_tokens. cbn [fn_args fn_return fn_doc fn_name].
  nlc. apply closed_app; [apply doc_closed|]. pc "pub async fn ".
  apply closed_word_app; [apply format_name_word|reflexivity|].
  apply (closed_app u (lit "<T: ") _ (rust u "<T:")); [reflexivity|].
  apply opened_closed; [apply type_opened, transport_sane|reflexivity|].
  apply (closed_app u (lit ">(" ++ nl ++ lit "    ") _ (rust u ">(")); [reflexivity|].
  apply opened_closed; [|reflexivity|].
  - apply opened_sep; [reflexivity|reflexivity|discriminate|].
    assert (A : Forall (fun '(n, t) => Forall (fun c => word_char u c = true) n /\ sane_type t) (transport :: f_params f)).
    { constructor; [|exact P]. split; [apply Forall_forall, forallb_forall; reflexivity|apply T_sane]. }
    fold transport. induction A as [|[n t] l [W S] A IH]; [constructor|]. constructor; auto.
    apply opened_opened; [apply opened_word; auto|reflexivity|]. apply (closed_open_app u (lit ": &") (rust u ": &")); [reflexivity|]. apply type_opened; auto.
  - nlc. pc ") -> Result<". apply opened_closed; [apply type_opened; auto|reflexivity|]. reflexivity.
Qed.
End Text.

Section Generate.
Context (u : uni) (root : node) (d : definitions) (D : definitions_new root = Ok d).
Notation tns := (target_namespace root).
Definition func_text (f : func) : str := generate_function u (as_function f) tns.
Lemma node_root : df_node d = root.
Proof. exact (proj1 (definitions_lookup _ _ D)). Qed.
Definition emit (o : operation) : res str := bind (function_new o d) (fun f => Ok (generate_function u f (target_namespace (df_node d)))).
Lemma emit_ok o s : op_type_new (op_node o) = Ok (op_ty o) -> (emit o = Ok s <-> exists f, op_func root (op_node o) f /\ s = func_text f).
Proof.
  intros T. unfold emit, func_text. rewrite node_root, bind_ok. split.
  - intros (g & G & [= <-]). apply (function_ok _ _ D) in G as (f & F & ->); eauto.
  - intros (f & F & ->). exists (as_function f). split; auto. apply (function_ok _ _ D); eauto.
Qed.
Lemma emit_no_err o : emit o <> Err.
Proof. unfold emit. apply bind_no_err; [apply (function_no_err d)|discriminate]. Qed.
Lemma emit_panic o : op_type_new (op_node o) = Ok (op_ty o) -> (emit o = Panic <-> forall f, ~ op_func root (op_node o) f).
Proof.
  intros T. rewrite <- (function_panic root d D o T). unfold emit. destruct (function_new o d); cbn [bind]; split; congruence.
Qed.
Lemma emit_port p ts : parsed_port (pt_node p) p ->
  (rtraverse emit (pt_ops p) = Ok ts <-> exists fs, port_funcs root (pt_node p) fs /\ ts = map func_text fs).
Proof.
  intros [_ F]. rewrite rtraverse_ok. unfold port_funcs. revert ts. induction F as [|c o cs os [<- T] F IH]; intros ts; split.
  - intros X. inversion X; subst. exists []. auto.
  - intros (fs & X & ->). inversion X; subst. constructor.
  - intros X. inversion X as [|? s ? ts' E R]; subst. apply emit_ok in E as (f & G & ->); auto. apply IH in R as (fs & R & ->).
    exists (f :: fs). split; auto.
  - intros (fs & X & ->). inversion X as [|? f ? fs' G R]; subst. cbn [map]. constructor; [apply emit_ok; eauto|]. apply IH. eauto.
Qed.
Lemma emit_port_panic p : parsed_port (pt_node p) p ->
  (rtraverse emit (pt_ops p) = Panic <-> exists op, In op (elems "operation" (pt_node p)) /\ forall f, ~ op_func root op f).
Proof.
  intros [_ F]. rewrite (proj1 (rtraverse_panic emit (pt_ops p) (fun o _ => emit_no_err o))). split.
  - intros (o & I & P). destruct (Forall2_in_r _ _ _ _ F I) as (c & J & <- & T). exists (op_node o). split; auto. apply emit_panic; auto.
  - intros (op & I & N). destruct (Forall2_in_l _ _ _ _ F I) as (o & J & <- & T). exists o. split; auto. apply emit_panic; auto.
Qed.
Context (order : list port_type) (P : Permutation order (map snd (df_ports d))).
Lemma generate_ok s : generate_wsdl u d order = Ok s <->
  exists fss, Forall2 (port_funcs root) (map pt_node order) fss /\ s = concat (map (fun fs => concat (map func_text fs)) fss).
Proof.
  destruct (definitions_ports _ _ _ D P) as [_ F]. unfold generate_wsdl. fold emit. rewrite bind_ok. split.
  - intros (tss & R & [= <-]). apply rtraverse_ok in R. clear P. 
    enough (X : exists fss, Forall2 (port_funcs root) (map pt_node order) fss /\ tss = map (map func_text) fss).
    { destruct X as (fss & X & ->). exists fss. split; auto. rewrite map_map. auto. }
    induction R as [|p ts order tss E R IH]; [exists []; split; [constructor|reflexivity]|]. inversion F as [|? ? Q F']; subst. apply emit_port in E as (fs & G & ->); auto.
    destruct (IH F') as (fss & X & ->). exists (fs :: fss). split; auto. constructor; auto.
  - intros (fss & X & ->). exists (map (map func_text) fss). split; [|rewrite map_map; auto]. apply rtraverse_ok. clear P.
    revert fss X. induction F as [|p order Q F IH]; intros fss X; inversion X as [|? fs ? fss' G X']; subst; [constructor|]. cbn [map]. constructor; auto.
    apply emit_port; eauto.
Qed.
Lemma generate_panic : (generate_wsdl u d order = Panic <->
    exists p op, In p (elems "portType" root) /\ In op (elems "operation" p) /\ forall f, ~ op_func root op f) /\ generate_wsdl u d order <> Err.
Proof.
  destruct (definitions_ports _ _ _ D P) as [Q F]. unfold generate_wsdl. fold emit.
  assert (NE : forall p, In p order -> rtraverse emit (pt_ops p) <> Err) by (intros p _; apply rtraverse_no_err; intros; apply emit_no_err).
  destruct (rtraverse_panic (fun p => rtraverse emit (pt_ops p)) order NE) as [X Y]. rewrite Forall_forall in F.
  assert (Z : (exists p, In p order /\ rtraverse emit (pt_ops p) = Panic) <-> 
    exists p op, In p (elems "portType" root) /\ In op (elems "operation" p) /\ forall f, ~ op_func root op f).
  { split.
    - intros (p & I & E). apply emit_port_panic in E as (op & J & N); auto. exists (pt_node p), op. split; auto.
      apply (Permutation_in _ Q). apply in_map. auto.
    - intros (n & op & I & J & N). apply (Permutation_in _ (Permutation_sym Q)) in I. apply in_map_iff in I as (p & <- & I).
      exists p. split; auto. apply emit_port_panic; eauto. }
  rewrite <- Z, <- X. clear X. revert Y. destruct (rtraverse (fun p => rtraverse emit (pt_ops p)) order); cbn [bind]; intros Y; [|congruence|]; (split; [split|]); first [discriminate|auto].
Qed.
Lemma generate_tokens fss : Forall (Forall (sane_func u sane_type)) fss ->
  closed u (concat (map (fun fs => concat (map func_text fs)) fss))
    (concat (map (fun fs => concat (map (func_tokens u (fun q => default_format_type u q tns) (format_name u)) fs)) fss)).
Proof.
  intros S. apply closed_concat. induction S as [|fs fss S _ IH]; cbn [map]; constructor; auto.
  apply closed_concat. induction S as [|f fs S _ IH']; cbn [map]; constructor; auto. apply function_text. auto.
Qed.
End Generate.

Lemma Forall2_perm {A B} (R : A -> B -> Prop) (U : forall x y z, R x y -> R x z -> y = z) l l' r r' :
  Permutation l l' -> Forall2 R l r -> Forall2 R l' r' -> Permutation r r'.
Proof.
  intros P. revert r r'. induction P as [|x l l' P IH|x y l|l l1 l2 P1 IH1 P2 IH2]; intros r r' F G.
  - inversion F; inversion G; subst. constructor.
  - inversion F as [|? b ? rs X F']; inversion G as [|? b' ? rs' X' G']; subst. assert (b' = b) by (eapply U; eauto). subst. constructor. auto.
  - inversion F as [|? b ? rs X F']; subst. inversion F' as [|? c ? rs1 Y F'']; subst. inversion G as [|? b' ? rs' X' G']; subst. inversion G' as [|? c' ? rs1' Y' G'']; subst.
    assert (b' = c) by (eapply U; eauto). assert (c' = b) by (eapply U; eauto). subst.
    assert (rs1' = rs1) by (clear - U F'' G''; revert rs1' G''; induction F'' as [|? ? ? ? Z ? IH]; intros rs G; inversion G; subst; auto; f_equal; eauto).
    subst. constructor.
  - assert (X : exists r1, Forall2 R l1 r1).
    { clear - P1 F. assert (H : forall x, In x l1 -> exists y, R x y).
      { intros x I. apply (Permutation_in _ (Permutation_sym P1)) in I. destruct (Forall2_in_l _ _ _ _ F I) as (y & _ & Y). eauto. }
      clear P1 F. induction l1 as [|x l1 IH]; [exists []; auto|]. destruct (H x (or_introl eq_refl)) as (y & Y).
      destruct IH as (r1 & R1); [intros; apply H; right; auto|]. exists (y :: r1). auto. }
    destruct X as (r1 & X). eapply Permutation_trans; [apply IH1|apply IH2]; eauto.
Qed.
Lemma generate_orders u root d o1 o2 s1 s2 : definitions_new root = Ok d ->
  Permutation o1 (map snd (df_ports d)) -> Permutation o2 (map snd (df_ports d)) ->
  generate_wsdl u d o1 = Ok s1 -> generate_wsdl u d o2 = Ok s2 ->
  exists b1 b2, Permutation b1 b2 /\ s1 = concat b1 /\ s2 = concat b2 /\ List.length b1 = List.length (elems "portType" root).
Proof.
  intros D P1 P2 G1 G2. pose proof (definitions_ports _ _ _ D P1) as [Q1 _]. pose proof (definitions_ports _ _ _ D P2) as [Q2 _].
  apply (generate_ok _ _ _ D _ P1) in G1 as (f1 & F1 & ->). apply (generate_ok _ _ _ D _ P2) in G2 as (f2 & F2 & ->).
  set (g := fun fs => concat (map (func_text u root) fs)). exists (map g f1), (map g f2). split; [|split; [|split]]; auto.
  - apply Permutation_map.
    assert (C : accepted root) by (apply definitions_accepted; eauto). destruct C as (_ & _ & _ & _ & C).
    assert (F1' : Forall2 (fun p fs => In p (elems "portType" root) /\ port_funcs root p fs) (map pt_node o1) f1).
    { eapply Forall2_imp; [|exact F1]. intros x y I H. split; auto. apply (Permutation_in _ Q1). auto. }
    assert (F2' : Forall2 (fun p fs => In p (elems "portType" root) /\ port_funcs root p fs) (map pt_node o2) f2).
    { eapply Forall2_imp; [|exact F2]. intros x y I H. split; auto. apply (Permutation_in _ Q2). auto. }
    refine (Forall2_perm _ _ _ _ _ _ _ F1' F2'); [|eapply Permutation_trans; [exact Q1|apply Permutation_sym; exact Q2]].
    intros p x y [I X] [_ Y]. unfold port_funcs in *. assert (C' := fun op => C p op I). revert y Y C'.
    induction X as [|op f ops fs H X IH]; intros y Y C'; inversion Y as [|? f' ? fs' H' Y']; subst; auto. f_equal.
    + eapply (op_func_unique root d D op); eauto. apply C'. left. auto.
    + apply IH; auto. intros o J. apply C'. right. auto.
  - rewrite map_length, <- (Forall2_len _ _ _ F1). apply Permutation_length. auto.
Qed.

(** ** The document *)
Lemma root_found roots r : root_element roots r <-> find is_element roots = Some r.
Proof.
  unfold root_element. split.
  - intros (pre & post & -> & E & N). induction pre as [|y pre IH]; cbn [app find]; [rewrite E; auto|]. rewrite (N y) by (left; auto). apply IH. intros; apply N; right; auto.
  - induction roots as [|y roots IH]; [discriminate|]. cbn [find]. destruct (is_element y) eqn:E.
    + intros [= ->]. exists [], roots. split; [auto|split; [auto|intros y []]].
    + intros H. destruct (IH H) as (pre & post & -> & X & N). exists (y :: pre), post. do 2 (split; auto). intros z [<-|I]; auto.
Qed.
Lemma schemas_elems t : schemas t = elems "schema" t.
Proof. unfold schemas, elems, elements. rewrite filter_filter. apply filter_ext. auto. Qed.
Section Document.
Context (u : uni) (roots : list node) (root : node) (d : definitions) (order : definitions -> list port_type).
Context (R : root_element roots root) (D : definitions_new root = Ok d) (P : Permutation (order d) (map snd (df_ports d))).
Definition schema_code (ts : node * node) : res str :=
  bind (parse_schema u (snd ts) [fst ts; root]) (fun f => rmap snd (generate_rs_file u f)).
Lemma rtraverse_app {A B} (f : A -> res B) a b : rtraverse f (a ++ b) = bind (rtraverse f a) (fun x => bind (rtraverse f b) (fun y => Ok (x ++ y))).
Proof.
  induction a as [|x a IH]; cbn [app rtraverse bind]; [destruct (rtraverse f b); auto|]. destruct (f x); cbn [bind]; auto. rewrite IH.
  destruct (rtraverse f a); cbn [bind]; auto. destruct (rtraverse f b); auto.
Qed.
Lemma rtraverse_map {A B C} (g : A -> B) (f : B -> res C) l : rtraverse f (map g l) = rtraverse (fun x => f (g x)) l.
Proof. induction l as [|x l IH]; auto. cbn [map rtraverse]. rewrite IH. auto. Qed.
Lemma schemas_flat ts : bind (rtraverse (fun t => rtraverse (fun s => bind (parse_schema u s [t; root]) (fun f => rmap snd (generate_rs_file u f))) (schemas t)) ts)
    (fun code => Ok (concat (map (@concat N) code))) =
  bind (rtraverse schema_code (concat (map (fun t => map (fun s => (t, s)) (elems "schema" t)) ts))) (fun l => Ok (concat l)).
Proof.
  induction ts as [|t ts IH]; auto. cbn [map concat]. rewrite rtraverse_app. cbn [rtraverse]. rewrite schemas_elems, rtraverse_map.
  unfold schema_code at 1. cbn [fst snd]. destruct (rtraverse _ (elems "schema" t)) as [x| |]; cbn [bind]; auto.
  destruct (rtraverse _ ts) as [y| |], (rtraverse schema_code _) as [z| |]; cbn [bind] in *; try congruence.
  injection IH as IH. cbn [map concat]. rewrite IH, concat_app. auto.
Qed.
Lemma code_eq : wsdl_code u roots order =
  bind (rtraverse schema_code (embedded root)) (fun l => bind (generate_wsdl u d (order d)) (fun fns => Ok (concat l ++ fns))).
Proof.
  unfold wsdl_code. apply root_found in R. rewrite R. cbn [expect bind]. rewrite D. cbn [bind].
  destruct (definitions_lookup _ _ D) as (_ & T & _). unfold embedded. rewrite <- T. pose proof (schemas_flat (df_types d)) as X.
  destruct (rtraverse _ (df_types d)) as [x| |], (rtraverse schema_code _) as [y| |]; cbn [bind] in *; try congruence.
  injection X as ->. auto.
Qed.
Lemma schemas_ok l : rtraverse schema_code (embedded root) = Ok l <->
  exists fs, Forall2 (fun '(t, s) f => parse_schema u s [t; root] = Ok f) (embedded root) fs /\
             Forall2 (fun f x => exists f', generate_rs_file u f = Ok (f', x)) fs l.
Proof.
  rewrite rtraverse_ok. revert l. induction (embedded root) as [|[t s] es IH]; intros l; split.
  - intros X. inversion X. exists []. auto.
  - intros (fs & X & Y). inversion X; subst. inversion Y. constructor.
  - intros X. inversion X as [|? x ? l' E F]; subst. unfold schema_code in E. cbn [fst snd] in E. apply bind_ok in E as (f & E & G).
    apply rmap_iff in G as ([f' x'] & G & <-). apply IH in F as (fs & A & B). exists (f :: fs). split; constructor; auto. eauto.
  - intros (fs & X & Y). inversion X as [|? f ? fs' E F]; subst. inversion Y as [|? x ? l' (f' & G) H]; subst. constructor; [|apply IH; eauto].
    unfold schema_code. cbn [fst snd]. rewrite E. cbn [bind]. rewrite G. auto.
Qed.
Lemma code_ok s : wsdl_code u roots order = Ok s <-> exists fs l fss,
  Forall2 (fun '(t, s) f => parse_schema u s [t; root] = Ok f) (embedded root) fs /\
  Forall2 (fun f x => exists f', generate_rs_file u f = Ok (f', x)) fs l /\
  Forall2 (port_funcs root) (map pt_node (order d)) fss /\ s = concat l ++ concat (map (fun fs => concat (map (func_text u root) fs)) fss).
Proof.
  rewrite code_eq, bind_ok. split.
  - intros (l & A & H). apply bind_ok in H as (fns & B & [= <-]). apply schemas_ok in A as (fs & A1 & A2).
    apply (generate_ok _ _ _ D _ P) in B as (fss & B & ->). eauto 10.
  - intros (fs & l & fss & A1 & A2 & B & ->). exists l. split; [apply schemas_ok; eauto|]. apply bind_ok.
    eexists. split; [apply (generate_ok _ _ _ D _ P); eauto|auto].
Qed.
Definition file_toks (f : rs_file) (its : list item) : Prop :=
  all_items u (rf_target_ns f) (fun q => format_type_name u q (rf_xsd_ns f) (rf_target_ns f)) (format_name u) (variant_name u (rf_target_ns f)) (rf_types f) its.
Lemma code_tokens s : wsdl_code u roots order = Ok s -> exists fs fss,
  Forall2 (fun '(t, s) f => parse_schema u s [t; root] = Ok f) (embedded root) fs /\
  Forall2 (port_funcs root) (map pt_node (order d)) fss /\
  (Forall (fun f => sane_ns (rf_target_ns f) /\ Forall sane (rf_types f)) fs -> Forall (Forall (sane_func u sane_type)) fss ->
   exists itss, Forall2 file_toks fs itss /\
   lex u s = Some (concat (map (fun its => concat (map (item_tokens u) its)) itss) ++
                   concat (map (fun fs => concat (map (func_tokens u (fun q => default_format_type u q (target_namespace root)) (format_name u)) fs)) fss))).
Proof.
  intros E. apply code_ok in E as (fs & l & fss & A & B & C & ->). exists fs, fss. do 2 (split; [auto|]). intros S T.
  assert (X : exists itss, Forall2 file_toks fs itss /\ closed u (concat l) (concat (map (fun its => concat (map (item_tokens u) its)) itss))).
  { clear - B S. induction B as [|f x fs l (f' & G) B IH]; [exists []; split; [constructor|reflexivity]|]. inversion S as [|? ? [S1 S2] S']; subst.
    destruct (IH S') as (itss & I1 & I2). rewrite generate_file_eq in G. pose proof (file_list u _ (rf_xsd_ns f) S1 _ S2) as X.
    destruct (rtraverse _ _) as [ts| |]; try discriminate. injection G as _ <-. destruct X as (its & X1 & X2).
    exists (its :: itss). split; [constructor; auto|]. cbn [map concat]. apply closed_app; auto. }
  destruct X as (itss & X1 & X2). exists itss. split; auto. apply closed_lex. apply closed_app; auto. apply generate_tokens. auto.
Qed.
End Document.

(** ** The variable of the body *)
Lemma single_way op i i' : (one_way op i \/ exists o fs, request_response op i o fs) ->
  (one_way op i' \/ exists o fs, request_response op i' o fs) -> i = i'.
Proof.
  destruct (classify op) as (RR & OW & _). intros [A|(o & fs & A)] [B|(o' & fs' & B)];
    repeat match goal with X : one_way _ _ |- _ => apply OW in X | X : request_response _ _ _ _ |- _ => apply RR in X end; congruence.
Qed.
Lemma scoped root op i f qi : accepted root -> (one_way op i \/ exists o fs, request_response op i o fs) -> has i "message" qi ->
  op_func root op f ->
  (well_scoped f <-> exists m, message_of root qi m /\ (List.length (parts m) = 1 \/ exists p, In p (parts m) /\ has p "name" (lit "request"))).
Proof.
  intros A W H F. apply definitions_accepted in A as (d & D).
  assert (X : request_params root qi (f_params f)).
  { destruct F as [i' o fs q q' n ps t c R Hi _ _ P _ _|i' q n ps c R Hi _ P _]; cbn [f_params].
    - assert (i' = i) by (eapply single_way; eauto). subst. unfold has in *. congruence.
    - assert (i' = i) by (eapply single_way; eauto). subst. unfold has in *. congruence. }
  unfold well_scoped. clear F W H. inversion X as [N E|m p t M Q T E|m l M L G E]; subst.
  - cbn. split; [tauto|]. intros (m & M & _). destruct (N m M).
  - cbn. split; auto. intros _. exists m. split; auto. rewrite Q. auto.
  - split.
    + intros I. apply in_map_iff in I as ([n t] & Hn & I). cbn in Hn. subst n.
      destruct (Forall2_in_r _ _ _ _ G I) as (p & J & K & _). eauto 6.
    + intros (m' & M' & [C|(p & I & K)]); assert (m' = m) by (eapply (message_unique root d D); eauto); subst; [contradiction|].
      destruct (Forall2_in_l _ _ _ _ G I) as ([n t] & J & K' & _). unfold has in *. rewrite K in K'. injection K' as <-.
      apply (in_map fst) in J. exact J.
Qed.
Lemma code_succeeds u roots root d order : root_element roots root -> definitions_new root = Ok d ->
  Permutation (order d) (map snd (df_ports d)) ->
  ((exists s, wsdl_code u roots order = Ok s) <->
   (forall t s, In (t, s) (embedded root) -> exists f f' x, parse_schema u s [t; root] = Ok f /\ generate_rs_file u f = Ok (f', x)) /\
   (forall p op, In p (elems "portType" root) -> In op (elems "operation" p) -> exists f, op_func root op f)).
Proof.
  intros R D P. rewrite (code_eq u roots root d order R D). split.
  - intros (s & E). apply bind_ok in E as (l & A & H). apply bind_ok in H as (fns & B & _). split.
    + intros t sc I. destruct (proj2 (rtraverse_exists _ _) (ex_intro _ _ A) _ I) as (y & Y). unfold schema_code in Y. cbn [fst snd] in Y.
      apply bind_ok in Y as (f & Y & G). apply rmap_iff in G as ([f' x] & G & _). eauto.
    + intros p op I J. apply (generate_ok _ _ _ D _ P) in B as (fss & F & _). destruct (definitions_ports _ _ _ D P) as [Q _].
      apply (Permutation_in _ (Permutation_sym Q)) in I. destruct (Forall2_in_l _ _ _ _ F I) as (fs & _ & X).
      destruct (Forall2_in_l _ _ _ _ X J) as (f & _ & Y). eauto.
  - intros [A B]. destruct (proj1 (rtraverse_exists (schema_code u root) (embedded root))) as (l & L).
    { intros [t sc] I. destruct (A t sc I) as (f & f' & x & E & G). exists x. unfold schema_code. cbn [fst snd]. rewrite E. cbn [bind]. rewrite G. auto. }
    rewrite L. cbn [bind]. destruct (generate_panic u root d D (order d) P) as [X Y]. destruct (generate_wsdl u d (order d)) as [fns| |]; cbn [bind]; [eauto|congruence|].
    destruct X as [X _]. destruct (X eq_refl) as (p & op & I & J & N). destruct (B p op I J) as (f & F). destruct (N f F).
Qed.
