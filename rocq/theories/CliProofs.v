(** Proofs for PropsCli.v. *)
From Coq Require Import Arith NArith ZArith Bool Ascii String List Lia.
From Verif Require Import Str StrFacts Cli SpecCli.
Import ListNotations.
Local Open Scope string_scope.
Local Open Scope list_scope.
Local Open Scope N_scope.
Arguments lit : simpl never.
Arguments chr : simpl never.

Lemma path_eqb_spec p q : path_eqb p q = true <-> p = q.
Proof.
  revert q. induction p as [|a p IH]; intros [|b q]; cbn [path_eqb]; try (split; [discriminate|intros X; discriminate X]).
  - tauto.
  - rewrite andb_true_iff, IH, str_eqb_eq. split; [intros [-> ->]; reflexivity|intros X; injection X; auto].
Qed.
Lemma path_eqb_refl p : path_eqb p p = true.
Proof. apply path_eqb_spec. reflexivity. Qed.
Lemma put_here d p o : put d p o p = Some o.
Proof. unfold put. rewrite path_eqb_refl. reflexivity. Qed.
Lemma put_other d p o q : q <> p -> put d p o q = d q.
Proof. unfold put. intros H. destruct (path_eqb q p) eqn:E; [apply path_eqb_spec in E; congruence|reflexivity]. Qed.
Lemma put_cases d p o q : (q = p /\ put d p o q = Some o) \/ (q <> p /\ put d p o q = d q).
Proof.
  unfold put. destruct (path_eqb q p) eqn:E; [left; apply path_eqb_spec in E; auto|].
  right. split; [|reflexivity]. intros ->. rewrite path_eqb_refl in E. discriminate.
Qed.

(** *** names *)
Lemma chr_dot : chr "." = 46. Proof. reflexivity. Qed.
Lemma last_dot_some s a b : last_dot s = Some (a, b) <-> s = a ++ lit "." ++ b /\ ~ In 46 b.
Proof.
  change (lit ".") with [46]. revert a b. induction s as [|c s IH]; intros a b.
  - cbn. split; [discriminate|]. intros [H _]. destruct a; discriminate.
  - cbn [last_dot]. destruct (last_dot s) as [[x y]|] eqn:E.
    + destruct (proj1 (IH x y) eq_refl) as (Es & N). split.
      * intros X. injection X as <- <-. rewrite Es. auto.
      * intros [H N']. destruct a as [|c' a]; cbn [app] in H; injection H as -> H.
        -- exfalso. apply N'. rewrite <- H, Es. apply in_elt.
        -- assert (X : Some (x, y) = Some (a, b)) by (apply IH; auto). injection X as -> ->. reflexivity.
    + rewrite chr_dot. destruct (c =? 46) eqn:Ec.
      * apply N.eqb_eq in Ec. subst c. split.
        -- intros X. injection X as <- <-. split; [reflexivity|]. intros I.
           apply in_split in I. destruct I as (u & v & ->).
           assert (exists x y, last_dot (u ++ 46 :: v) = Some (x, y)) as (x & y & X).
           { clear. induction u as [|e u (x & y & IH)]; cbn [app last_dot].
             - destruct (last_dot v) as [[x y]|]; [eauto|]. exists [], v. reflexivity.
             - rewrite IH. eauto. }
           rewrite X in E. discriminate.
        -- intros [H N]. destruct a as [|c' a]; cbn [app] in H; [injection H as H1|injection H as H1 H2].
           ++ subst. reflexivity.
           ++ assert (X : None = Some (a, b)) by (apply IH; auto). discriminate.
      * split; [discriminate|]. intros [H N]. destruct a as [|c' a]; cbn [app] in H; injection H as H1 H2.
        -- subst. discriminate.
        -- assert (X : None = Some (a, b)) by (apply IH; auto). discriminate.
Qed.
Lemma last_dot_none s : last_dot s = None -> ~ In 46 s.
Proof.
  intros H I. apply in_split in I. destruct I as (u & v & ->).
  assert (exists x y, last_dot (u ++ 46 :: v) = Some (x, y)) as (x & y & X).
  { clear. induction u as [|e u (x & y & IH)]; cbn [app last_dot].
    - destruct (last_dot v) as [[x y]|]; [eauto|]. exists [], v. reflexivity.
    - rewrite IH. eauto. }
  rewrite X in H. discriminate.
Qed.
Lemma rs_name_spec n o : output_name n o <-> o = rs_name n.
Proof.
  unfold rs_name. split.
  - intros H. inversion H as [stem ext Hs Hn A B|name Hn A B|ext Hn A B]; subst.
    + rewrite (proj2 (last_dot_some _ stem ext) (conj eq_refl Hn)). destruct stem; [congruence|reflexivity].
    + destruct (last_dot n) as [[a b]|] eqn:E; [|reflexivity]. apply last_dot_some in E. destruct E as [-> _].
      exfalso. apply Hn. apply in_elt.
    + rewrite (proj2 (last_dot_some (lit "." ++ ext) [] ext) (conj eq_refl Hn)). rewrite <- app_assoc. reflexivity.
  - intros ->. destruct (last_dot n) as [[[|c a] b]|] eqn:E.
    + apply last_dot_some in E. destruct E as [E N]. cbn [app] in E. rewrite E. rewrite <- app_assoc. apply output_hidden, N.
    + apply last_dot_some in E. destruct E as [-> N]. apply output_extension; [discriminate|exact N].
    + apply output_none, last_dot_none, E.
Qed.

(** *** directories *)
Definition above (q out : path) : Prop := exists a, out = a ++ q.
Lemma above_refl q : above q q. Proof. exists []. reflexivity. Qed.
Lemma above_cons q n out : above q out -> above q (n :: out).
Proof. intros (a & ->). exists (n :: a). reflexivity. Qed.

Lemma create_sound p : forall d d' r, create_dir_all p d = (d', r) ->
  forall q, d' q = d q \/ (d q = None /\ d' q = Some Directory /\ above q p).
Proof.
  induction p as [|n p IH]; intros d d' r H q; cbn [create_dir_all] in H.
  - destruct (d []) as [[|t]|]; injection H as <- <-; auto.
  - destruct (d (n :: p)) as [[|t]|] eqn:E; try (injection H as <- <-; auto; fail).
    destruct (create_dir_all p d) as [d1 r1] eqn:C. specialize (IH _ _ _ C).
    destruct r1 as [[]| |]; injection H as <- <-.
    + destruct (put_cases d1 (n :: p) Directory q) as [[-> ->]|[N ->]].
      * right. split; [exact E|]. split; [reflexivity|apply above_refl].
      * destruct (IH q) as [X|(X & Y & Z)]; [auto|]. right. auto using above_cons.
    + destruct (IH q) as [X|(X & Y & Z)]; [auto|]. right. auto using above_cons.
    + destruct (IH q) as [X|(X & Y & Z)]; [auto|]. right. auto using above_cons.
Qed.
Lemma create_ok p : forall d, d [] = Some Directory -> (forall a b, p = a ++ b -> d b = None \/ d b = Some Directory) ->
  (forall a b n, p = a ++ n :: b -> d (n :: b) = Some Directory -> d b = Some Directory) ->
  exists d', create_dir_all p d = (d', Ok tt) /\ forall a b, p = a ++ b -> d' b = Some Directory.
Proof.
  induction p as [|n p IH]; intros d R A U; cbn [create_dir_all].
  - rewrite R. exists d. split; [reflexivity|]. intros a b E. destruct a, b; try discriminate. exact R.
  - destruct (A [] (n :: p) eq_refl) as [E|E]; rewrite E.
    + destruct (IH d R) as (d1 & -> & D); [intros a b ->; apply (A (n :: a)); reflexivity|intros a b m ->; apply (U (n :: a)); reflexivity|].
      eexists. split; [reflexivity|]. intros a b F. destruct (put_cases d1 (n :: p) Directory b) as [[_ X]|[N X]]; [exact X|].
      rewrite X. destruct a as [|m a]; cbn [app] in F; [congruence|]. injection F as _ F. exact (D a b F).
    + exists d. split; [reflexivity|]. intros a. remember (n :: p) as q eqn:Q. clear Q IH R A n p.
      revert q U E. induction a as [|m a IH] using rev_ind; intros q U E b F; [cbn in F; congruence|].
      rewrite <- app_assoc in F. cbn [app] in F. apply (U a b m F). exact (IH q U E _ F).
Qed.

(** *** a tree *)
Fixpoint input_ind' (P : input -> Prop) (Hf : forall t, P (InFile t))
    (Hd : forall es, (forall n x, In (n, x) es -> P x) -> P (InDir es)) (x : input) {struct x} : P x.
Proof.
  destruct x as [t|es]; [apply Hf|]. apply Hd.
  induction es as [|[m y] es IH]; intros n x I; [destruct I|].
  destruct I as [E|I]; [|exact (IH n x I)]. injection E as _ <-. apply (input_ind' P Hf Hd).
Defined.

Lemma holds_nil x y : holds x [] y -> y = x.
Proof. intros H. inversion H as [|es n x' rel z I J A B]; [reflexivity|]. destruct rel; discriminate. Qed.
Lemma holds_file t rel y : holds (InFile t) rel y -> rel = [] /\ y = InFile t.
Proof. intros H. inversion H. auto. Qed.
Lemma holds_dir es rel y : holds (InDir es) rel y ->
  (rel = [] /\ y = InDir es) \/ exists n x rel', In (n, x) es /\ holds x rel' y /\ rel = rel' ++ [n].
Proof. intros H. inversion H as [|es' n x rel' z I J A B]; subst; [auto|]. right. exists n, x, rel'. auto. Qed.

(** *** places *)
Inductive kind := KDir | KFile (p : path) (t : option str).
Inductive at_entry : str -> input -> path -> path -> kind -> Prop :=
| at_file n t out : at_entry n (InFile t) out (rs_name n :: out) (KFile (n :: out) t)
| at_dir n es out : at_entry n (InDir es) out (n :: out) KDir
| at_in n es out m y q k : In (m, y) es -> at_entry m y (n :: out) q k -> at_entry n (InDir es) out q k.
Definition at_list (es : list (str * input)) (out q : path) (k : kind) : Prop := exists n x, In (n, x) es /\ at_entry n x out q k.

Lemma snoc_cons {A} (a : list A) x b : (a ++ [x]) ++ b = a ++ x :: b.
Proof. rewrite <- app_assoc. reflexivity. Qed.
Lemma at_entry_dir x : forall n out q, at_entry n x out q KDir <-> exists rel es, holds x rel (InDir es) /\ q = rel ++ n :: out.
Proof.
  induction x as [t|es IH] using input_ind'; intros n out q; split.
  - intros H. inversion H.
  - intros (rel & es & H & _). apply holds_file in H. destruct H as [_ H]. discriminate.
  - intros H. inversion H as [| |n' es' out' m y q' k I J]; subst.
    + exists [], es. split; [constructor|reflexivity].
    + apply (proj1 (IH m y I _ _ _)) in J. destruct J as (rel & es2 & J & ->). exists (rel ++ [m]), es2.
      split; [econstructor; eassumption|]. rewrite snoc_cons. reflexivity.
  - intros (rel & es2 & H & ->). apply holds_dir in H. destruct H as [[-> _]|(m & y & rel' & I & J & ->)]; [apply at_dir|].
    eapply at_in; [exact I|]. apply (proj2 (IH m y I _ _ _)). exists rel', es2. split; [exact J|]. apply snoc_cons.
Qed.
Lemma at_entry_file x : forall n out q p t, at_entry n x out q (KFile p t) <->
  exists rel m up, holds x rel (InFile t) /\ p = rel ++ n :: out /\ p = m :: up /\ q = rs_name m :: up.
Proof.
  induction x as [t0|es IH] using input_ind'; intros n out q p t; split.
  - intros H. inversion H; subst. exists [], n, out. repeat (split; [try reflexivity; constructor|]). reflexivity.
  - intros (rel & m & up & H & E & E2 & ->). apply holds_file in H. destruct H as [-> H]. injection H as ->.
    cbn [app] in E. subst p. injection E2 as <- <-. apply at_file.
  - intros H. inversion H as [| |n' es' out' m y q' k I J]; subst.
    apply (proj1 (IH m y I _ _ _ _ _)) in J. destruct J as (rel & h & up & J & E & E2 & ->). exists (rel ++ [m]), h, up.
    split; [econstructor; eassumption|]. rewrite snoc_cons. auto.
  - intros (rel & h & up & H & E & E2 & ->). apply holds_dir in H. destruct H as [[_ H]|(m & y & rel' & I & J & ->)]; [discriminate|].
    eapply at_in; [exact I|]. apply (proj2 (IH m y I _ _ _ _ _)). exists rel', h, up. rewrite snoc_cons in E. auto.
Qed.
Lemma at_list_dir es out q : (at_list es out q KDir \/ q = out) <-> directory_place (InDir es) out q.
Proof.
  unfold at_list, directory_place. split.
  - intros [(n & x & I & H)| ->].
    + apply at_entry_dir in H. destruct H as (rel & es2 & H & ->). exists (rel ++ [n]), es2.
      split; [econstructor; eassumption|]. rewrite snoc_cons. reflexivity.
    + exists [], es. split; [constructor|reflexivity].
  - intros (rel & es2 & H & ->). apply holds_dir in H. destruct H as [[-> _]|(m & y & rel' & I & J & ->)]; [auto|].
    left. exists m, y. split; [exact I|]. apply at_entry_dir. exists rel', es2. split; [exact J|]. apply snoc_cons.
Qed.
Lemma at_list_file es out q name up t : at_list es out q (KFile (name :: up) t) <->
  exists rel, holds (InDir es) (name :: rel) (InFile t) /\ up = rel ++ out /\ q = rs_name name :: up.
Proof.
  unfold at_list. split.
  - intros (n & x & I & H). apply at_entry_file in H. destruct H as (rel & m & up' & H & E & E2 & ->).
    injection E2 as <- <-. destruct rel as [|h rel]; cbn [app] in E; injection E as -> ->.
    + apply holds_nil in H. subst x. exists []. split; [|auto]. apply (holds_inside es n (InFile t) [] (InFile t) I). constructor.
    + exists (rel ++ [n]). split; [|rewrite snoc_cons; auto]. apply (holds_inside es n x (h :: rel) _ I H).
  - intros (rel & H & -> & ->). apply holds_dir in H. destruct H as [[H _]|(m & y & rel' & I & J & E)]; [discriminate|].
    exists m, y. split; [exact I|]. apply at_entry_file. exists rel', name, (rel ++ out). split; [exact J|].
    split; [|auto]. change (name :: rel ++ out) with ((name :: rel) ++ out). rewrite E. apply snoc_cons.
Qed.
Lemma at_entry_kind n x out q p t : at_entry n x out q (KFile p t) -> exists m up, p = m :: up.
Proof. intros H. apply at_entry_file in H. destruct H as (_ & m & up & _ & _ & E & _). eauto. Qed.

(** *** what one run may change *)
Section Run.
  Context (conv : str -> res str).
  Definition right (place : path -> kind -> Prop) (q : path) (o : option object) : Prop :=
    (place q KDir /\ o = Some Directory) \/ exists p s c, place q (KFile p (Some s)) /\ conv s = Ok c /\ o = Some (File c).
  Lemma right_mono (P Q : path -> kind -> Prop) q o : (forall k, P q k -> Q q k) -> right P q o -> right Q q o.
  Proof. intros H [[A B]|(p & s & c & A & B & C)]; [left; auto|right; exists p, s, c; auto]. Qed.

  Definition changes (es : list (str * input)) (out : path) (d d' : disk) : Prop :=
    forall q, d' q = d q \/ (d' q = Some Directory /\ above q out) \/ right (at_list es out) q (d' q).
  Lemma loop_changes step es out :
    (forall n x d d' r, In (n, x) es -> step n x d = (d', r) -> forall q, d' q = d q \/ (d' q = Some Directory /\ above q out) \/ right (at_entry n x out) q (d' q)) ->
    forall d d' r, entries_loop step es d = (d', r) -> changes es out d d'.
  Proof.
    intros S. induction es as [|[n x] es IH]; intros d d' r H q; cbn [entries_loop] in H; [injection H as <- <-; auto|].
    destruct (step n x d) as [d1 r1] eqn:E.
    assert (F : d1 q = d q \/ (d1 q = Some Directory /\ above q out) \/ right (at_list ((n, x) :: es) out) q (d1 q)).
    { destruct (S n x d d1 r1 (or_introl eq_refl) E q) as [A|[A|A]]; [auto|auto|]. right. right.
      revert A. apply right_mono. intros k A. exists n, x. split; [left; reflexivity|exact A]. }
    destruct r1 as [[]| |]; try (injection H as <- <-; exact F).
    destruct (IH (fun n0 x0 d0 d0' r0 I => S n0 x0 d0 d0' r0 (or_intror I)) d1 d' r H q) as [A|[A|A]].
    - rewrite A. exact F.
    - auto.
    - right. right. revert A. apply right_mono. intros k (n0 & x0 & I & A). exists n0, x0. split; [right; exact I|exact A].
  Qed.
  Lemma in_dir_changes step es out :
    (forall n x d d' r, In (n, x) es -> step n x d = (d', r) -> forall q, d' q = d q \/ (d' q = Some Directory /\ above q out) \/ right (at_entry n x out) q (d' q)) ->
    forall d d' r, in_dir step es out d = (d', r) -> changes es out d d'.
  Proof.
    intros S d d' r H q. unfold in_dir in H.
    destruct (match d out with Some _ => (d, Ok tt) | None => create_dir_all out d end) as [d1 r1] eqn:E.
    assert (F : d1 q = d q \/ (d1 q = Some Directory /\ above q out)).
    { destruct (d out); [injection E as <- <-; auto|]. destruct (create_sound _ _ _ _ E q) as [A|(_ & A & B)]; auto. }
    destruct r1 as [[]| |]; try (injection H as <- <-; destruct F; auto; fail).
    destruct (loop_changes step es out S d1 d' r H q) as [A|A]; [|auto]. rewrite A. destruct F; auto.
  Qed.
  Lemma above_next q n out : above q (n :: out) -> q = n :: out \/ above q out.
  Proof. intros ([|m a] & H); cbn [app] in H; [auto|]. injection H as _ H. right. exists a. exact H. Qed.
  Lemma entry_changes x : forall n out d d' r, process_entry conv out n x d = (d', r) ->
    forall q, d' q = d q \/ (d' q = Some Directory /\ above q out) \/ right (at_entry n x out) q (d' q).
  Proof.
    induction x as [t|es IH] using input_ind'; intros n out d d' r H q; cbn [process_entry] in H.
    - unfold process_single_file, write_to_file in H. destruct t as [s|]; [|injection H as <- <-; auto].
      destruct (conv s) as [c| |] eqn:C; try (injection H as <- <-; auto; fail).
      assert (F : (d', r) = (d, Err) \/ (d', r) = (put d (rs_name n :: out) (File c), Ok tt)).
      { destruct (d out) as [[|?]|]; [destruct (d (rs_name n :: out)) as [[|?]|]|..]; auto. }
      destruct F as [F|F]; injection F as -> ->; [auto|].
      destruct (put_cases d (rs_name n :: out) (File c) q) as [[-> ->]|[N ->]]; [|auto].
      right. right. right. exists (n :: out), s, c. split; [apply at_file|auto].
    - pose proof (in_dir_changes _ es (n :: out) (fun m y d d' r I => IH m y I m (n :: out) d d' r) d d' r H q) as C.
      destruct C as [C|[[C A]|C]]; [auto| |].
      + right. apply above_next in A. destruct A as [-> |A]; [|auto]. right. left. split; [apply at_dir|exact C].
      + right. right. revert C. apply right_mono. intros k (m & y & I & J). eapply at_in; eassumption.
  Qed.
  Lemma process_changes es out d d' r : process_dir conv es out d = (d', r) -> changes es out d d'.
  Proof. apply in_dir_changes. intros n x d0 d0' r0 _ H. exact (entry_changes _ _ _ _ _ _ H). Qed.

  (** *** success *)
  Definition top (n : str) (x : input) : str := match x with InFile _ => rs_name n | InDir _ => n end.
  Lemma at_entry_below n x out q k : at_entry n x out q k ->
    exists a, q = a ++ top n x :: out /\ match x with InFile _ => a = [] /\ k <> KDir | InDir _ => a = [] -> k = KDir end.
  Proof.
    induction 1 as [n t out|n es out|n es out m y q k I J (a & -> & E)].
    - exists []. split; [reflexivity|]. split; [reflexivity|discriminate].
    - exists []. auto.
    - cbn [top]. exists (a ++ [top m y]). rewrite snoc_cons. split; [reflexivity|]. intros X. destruct a; discriminate.
  Qed.
  Definition good_list (es : list (str * input)) : Prop :=
    NoDup (map fst es) /\ forall n1 t n2 es2, In (n1, InFile t) es -> In (n2, InDir es2) es -> rs_name n1 <> n2.
  Inductive good : input -> Prop :=
  | good_file s c : conv s = Ok c -> good (InFile (Some s))
  | good_dir es : good_list es -> (forall n x, In (n, x) es -> good x) -> good (InDir es).
  Lemma tops es n x m y : good_list ((n, x) :: es) -> In (m, y) es -> top n x = top m y ->
    exists t u, x = InFile t /\ y = InFile u.
  Proof.
    intros [N C] I E. cbn [map fst] in N. inversion N as [|? ? N1 N2]; subst.
    assert (I' : In m (map fst es)) by (apply (in_map fst) in I; exact I).
    destruct x as [t|es1], y as [u|es2]; cbn [top] in E; [eauto|exfalso..].
    - exact (C n t m es2 (or_introl eq_refl) (or_intror I) E).
    - symmetry in E. exact (C m u n es1 (or_intror I) (or_introl eq_refl) E).
    - congruence.
  Qed.
  Lemma good_list_tail e es : good_list (e :: es) -> good_list es.
  Proof.
    intros [N C]. split; [cbn [map] in N; inversion N; assumption|]. intros n1 t n2 es2 A B. exact (C n1 t n2 es2 (or_intror A) (or_intror B)).
  Qed.
  Lemma app_cons_inj {A} (a b : list A) x y out : a ++ x :: out = b ++ y :: out -> a = b /\ x = y.
  Proof. rewrite <- (snoc_cons a x out), <- (snoc_cons b y out). intros H. apply app_inv_tail in H. apply app_inj_tail in H. exact H. Qed.
  Lemma not_above (a : path) x out : ~ above (a ++ x :: out) out.
  Proof. intros (b & H). apply (f_equal (@List.length _)) in H. rewrite !app_length in H. cbn [List.length] in H. lia. Qed.

  (** an entry can be processed *)
  Definition room (d : disk) (n : str) (x : input) (out : path) : Prop :=
    match x with
    | InFile _ => d (rs_name n :: out) <> Some Directory
    | InDir _ => forall a, d (a ++ n :: out) = None
    end.
  Definition done (place : path -> kind -> Prop) (d' : disk) : Prop :=
    forall q k, place q k -> match k with
      | KDir => d' q = Some Directory
      | KFile _ _ => exists p s c, place q (KFile p (Some s)) /\ conv s = Ok c /\ d' q = Some (File c)
      end.
  Lemma loop_done step es out :
    (forall n x d d' r, In (n, x) es -> step n x d = (d', r) -> forall q, d' q = d q \/ (d' q = Some Directory /\ above q out) \/ right (at_entry n x out) q (d' q)) ->
    (forall n x d, In (n, x) es -> d out = Some Directory -> room d n x out ->
       exists d', step n x d = (d', Ok tt) /\ done (at_entry n x out) d') ->
    good_list es -> forall d, d out = Some Directory -> (forall n x, In (n, x) es -> room d n x out) ->
    exists d', entries_loop step es d = (d', Ok tt) /\ done (at_list es out) d'.
  Proof.
    induction es as [|[n x] es IH]; intros T S G d D R; cbn [entries_loop].
    - exists d. split; [reflexivity|]. intros q k (n & x & [] & _).
    - destruct (S n x d (or_introl eq_refl) D (R n x (or_introl eq_refl))) as (d1 & E1 & D1).
      pose proof (T n x d d1 _ (or_introl eq_refl) E1) as C1. rewrite E1.
      assert (O1 : d1 out = Some Directory).
      { destruct (C1 out) as [A|[[A _]|A]]; [congruence|exact A|]. exfalso.
        assert (exists k, at_entry n x out out k) as (k & K) by (destruct A as [[A _]|(p & s & c & A & _)]; eauto).
        apply at_entry_below in K. destruct K as (a & K & _). apply (f_equal (@List.length _)) in K.
        rewrite app_length in K. cbn [List.length] in K. lia. }
      assert (R1 : forall m y, In (m, y) es -> room d1 m y out).
      { intros m y I. pose proof (R m y (or_intror I)) as R0. destruct y as [u|es2]; cbn [room] in R0 |- *.
        - destruct (C1 (rs_name m :: out)) as [A|[[_ A]|A]]; [congruence|exfalso; exact (not_above [] _ _ A)|].
          destruct A as [[A _]|(p & s & c & _ & _ & A)]; [|rewrite A; discriminate].
          apply at_entry_below in A. destruct A as (a & A & B).
          apply (app_cons_inj [] a) in A. destruct A as [<- A].
          destruct (tops es n x m (InFile u) G I (eq_sym A)) as (t & u' & -> & _). destruct B as [_ B]. congruence.
        - intros b. destruct (C1 (b ++ m :: out)) as [A|[[_ A]|A]]; [rewrite A; apply R0|exfalso; exact (not_above _ _ _ A)|]. exfalso.
          assert (exists k, at_entry n x out (b ++ m :: out) k) as (k & K) by (destruct A as [[A _]|(p & s & c & A & _)]; eauto).
          apply at_entry_below in K. destruct K as (a & K & _). apply app_cons_inj in K. destruct K as [-> K].
          destruct (tops es n x m (InDir es2) G I (eq_sym K)) as (t & u & _ & X). discriminate. }
      assert (T' : forall m y e e' r, In (m, y) es -> step m y e = (e', r) ->
         forall q, e' q = e q \/ (e' q = Some Directory /\ above q out) \/ right (at_entry m y out) q (e' q)).
      { intros m y e e' r I X. exact (T m y e e' r (or_intror I) X). }
      destruct (IH T' (fun n0 x0 d0 I => S n0 x0 d0 (or_intror I)) (good_list_tail _ _ G) d1 O1 R1) as (d2 & E2 & D2).
      exists d2. split; [exact E2|].
      pose proof (loop_changes step es out T' d1 d2 _ E2) as C2.
      assert (W : forall q k, at_list es out q k -> at_list ((n, x) :: es) out q k).
      { intros q k (m & y & I & J). exists m, y. split; [right; exact I|exact J]. }
      intros q k (m & y & [E|I] & J).
      + injection E as <- <-. pose proof (D1 q k J) as K.
        destruct (at_entry_below _ _ _ _ _ J) as (a & Q & B).
        assert (Z : d2 q = d1 q \/ exists t u p s c, x = InFile t /\ at_list es out q (KFile p (Some s)) /\ conv s = Ok c /\ d2 q = Some (File c) /\ u = a /\ k <> KDir).
        { destruct (C2 q) as [A|[[_ A]|A]]; [auto|exfalso; rewrite Q in A; exact (not_above _ _ _ A)|]. right.
          destruct A as [[(m & y & I & A) _]|(p & s & c & (m & y & I & A) & X & Y)];
            destruct (at_entry_below _ _ _ _ _ A) as (a' & Q' & B'); rewrite Q in Q'; apply app_cons_inj in Q'; destruct Q' as [<- Q'];
            destruct (tops es n x m y G I Q') as (t & u & -> & ->).
          - destruct B' as [_ B']. congruence.
          - destruct B as [-> B]. exists t, [], p, s, c. split; [reflexivity|]. split; [exists m, (InFile u); auto|]. auto. }
        destruct Z as [Z|(t & u & p & s & c & -> & A & X & Y & _ & Z)].
        * rewrite Z. destruct k as [|p0 t0]; [exact K|]. destruct K as (p & s & c & K1 & K2 & K3).
          exists p, s, c. split; [exists n, x; split; [left; reflexivity|exact K1]|auto].
        * destruct k as [|p0 t0]; [congruence|]. exists p, s, c. auto.
      + pose proof (D2 q k (ex_intro _ m (ex_intro _ y (conj I J)))) as K. destruct k as [|p0 t0]; [exact K|].
        destruct K as (p & s & c & K1 & K2 & K3). exists p, s, c. auto.
  Qed.
  Lemma entry_done x : good x -> forall n out d, d out = Some Directory -> room d n x out ->
    exists d', process_entry conv out n x d = (d', Ok tt) /\ done (at_entry n x out) d'.
  Proof.
    induction x as [t|es IH] using input_ind'; intros G n out d D R; cbn [process_entry].
    - inversion G as [s c C|]; subst. unfold process_single_file, write_to_file. rewrite C, D. cbn [room] in R.
      exists (put d (rs_name n :: out) (File c)). split; [destruct (d (rs_name n :: out)) as [[|?]|]; congruence|].
      intros q k J. inversion J; subst. exists (n :: out), s, c. split; [exact J|]. split; [exact C|apply put_here].
    - inversion G as [|es' Gl Ge]; subst. cbn [room] in R. unfold in_dir. rewrite (R [] : d (n :: out) = None).
      cbn [create_dir_all]. rewrite (R [] : d (n :: out) = None).
      assert (create_dir_all out d = (d, Ok tt)) as -> by (destruct out; cbn [create_dir_all]; rewrite D; reflexivity).
      destruct (loop_done (fun m y e => process_entry conv (n :: out) m y e) es (n :: out)
         (fun m y e e' r _ X => entry_changes y m (n :: out) e e' r X)
         (fun m y e I X Y => IH m y I (Ge m y I) m (n :: out) e X Y) Gl (put d (n :: out) Directory)) as (d' & E & F).
      + apply put_here.
      + assert (N : forall b, b ++ top n (InFile None) :: n :: out <> n :: out).
        { intros b X. apply (f_equal (@List.length _)) in X. rewrite app_length in X. cbn [List.length] in X. lia. }
        intros m y I. destruct y; cbn [room].
        * rewrite put_other; [rewrite (R [rs_name m] : d (rs_name m :: n :: out) = None); discriminate|].
          intros X. apply (f_equal (@List.length _)) in X. cbn [List.length] in X. lia.
        * intros a. rewrite put_other; [rewrite <- snoc_cons; apply R|].
          intros X. apply (f_equal (@List.length _)) in X. rewrite app_length in X. cbn [List.length] in X. lia.
      + exists d'. split; [exact E|]. intros q k J. inversion J as [| |n' es' out' m y q' k' I K]; subst.
        * (* the directory itself *)
          pose proof (loop_changes _ es (n :: out) (fun m y e e' r _ X => entry_changes y m (n :: out) e e' r X) _ _ _ E (n :: out)) as [A|[[A _]|A]].
          -- rewrite A. apply put_here.
          -- exact A.
          -- exfalso. assert (exists k, at_list es (n :: out) (n :: out) k) as (k & m & y & I & K) by (destruct A as [[A _]|(p & s & c & A & _)]; eauto).
             apply at_entry_below in K. destruct K as (a & K & _). apply (f_equal (@List.length _)) in K.
             rewrite app_length in K. cbn [List.length] in K. lia.
        * pose proof (F q k (ex_intro _ m (ex_intro _ y (conj I K)))) as Z. destruct k as [|p0 t0]; [exact Z|].
          destruct Z as (p & s & c & (m' & y' & I' & K') & Z2 & Z3). exists p, s, c. split; [eapply at_in; eassumption|auto].
  Qed.
  Lemma process_done es out d : good (InDir es) -> free d out ->
    exists d', process_dir conv es out d = (d', Ok tt) /\ done (at_list es out) d' /\ forall a b, out = a ++ b -> d' b = Some Directory.
  Proof.
    intros G (R & A & U & F). inversion G as [|es' Gl Ge]; subst. unfold process_dir, in_dir.
    assert (exists d1, (match d out with Some _ => (d, Ok tt) | None => create_dir_all out d end) = (d1, Ok tt) /\
              (forall a b, out = a ++ b -> d1 b = Some Directory) /\ forall q, q <> [] -> d1 (q ++ out) = None) as (d1 & -> & OA & F1).
    { destruct (create_ok out d R A U) as (d1 & E1 & O). destruct (A [] out eq_refl) as [E|E]; rewrite E.
      - exists d1. split; [exact E1|]. split; [exact O|].
        intros q Q. destruct (create_sound out d d1 _ E1 (q ++ out)) as [X|(_ & _ & (a & X))]; [rewrite X; apply F, Q|].
        exfalso. apply (f_equal (@List.length _)) in X. rewrite !app_length in X. destruct q; [congruence|]. cbn [List.length] in X. lia.
      - assert (create_dir_all out d = (d, Ok tt)) as X by (destruct out; cbn [create_dir_all]; rewrite E; reflexivity).
        rewrite X in E1. injection E1 as <-. exists d. auto. }
    assert (O : d1 out = Some Directory) by exact (OA [] out eq_refl).
    destruct (loop_done (fun m y e => process_entry conv out m y e) es out
         (fun m y e e' r _ X => entry_changes y m out e e' r X)
         (fun m y e I X Y => entry_done y (Ge m y I) m out e X Y) Gl d1 O) as (d' & E & D).
    - intros m y I. destruct y; cbn [room].
      + rewrite (F1 [rs_name m] ltac:(discriminate) : d1 (rs_name m :: out) = None). discriminate.
      + intros a. rewrite <- snoc_cons. apply F1. destruct a; discriminate.
    - exists d'. split; [exact E|]. split; [exact D|]. intros a b W.
      pose proof (loop_changes _ es out (fun m y e e' r _ X => entry_changes y m out e e' r X) _ _ _ E b) as [X|[[X _]|X]].
      + rewrite X. exact (OA a b W).
      + exact X.
      + exfalso. assert (exists k, at_list es out b k) as (k & m & y & I & K) by (destruct X as [[X _]|(p & s & c & X & _)]; eauto).
        apply at_entry_below in K. destruct K as (a' & K & _). apply (f_equal (@List.length _)) in K.
        rewrite W, !app_length in K. cbn [List.length] in K. rewrite app_length in K. lia.
  Qed.

  (** *** only success converts everything *)
  Lemma loop_all step es : forall d d', entries_loop step es d = (d', Ok tt) ->
    forall n x, In (n, x) es -> exists e e', step n x e = (e', Ok tt).
  Proof.
    induction es as [|[m y] es IH]; intros d d' H n x I; [destruct I|]. cbn [entries_loop] in H.
    destruct (step m y d) as [d1 [[]| |]] eqn:E; try discriminate.
    destruct I as [X|I]; [injection X as <- <-; eauto|]. eapply IH; eassumption.
  Qed.
  Lemma in_dir_all step es out d d' : in_dir step es out d = (d', Ok tt) ->
    forall n x, In (n, x) es -> exists e e', step n x e = (e', Ok tt).
  Proof.
    unfold in_dir. destruct (match d out with Some _ => (d, Ok tt) | None => create_dir_all out d end) as [d1 [[]| |]]; try discriminate.
    apply loop_all.
  Qed.
  Lemma entry_all x : forall n out d d', process_entry conv out n x d = (d', Ok tt) -> converts conv x.
  Proof.
    induction x as [t|es IH] using input_ind'; intros n out d d' H rel t' J; cbn [process_entry] in H.
    - apply holds_file in J. destruct J as [_ J]. injection J as ->. unfold process_single_file in H.
      destruct t as [s|]; [|discriminate]. destruct (conv s) as [c| |] eqn:C; try discriminate. eauto.
    - apply holds_dir in J. destruct J as [[_ J]|(m & y & rel' & I & J & ->)]; [discriminate|].
      destruct (in_dir_all _ _ _ _ _ H m y I) as (e & e' & X). exact (IH m y I m (n :: out) e e' X rel' t' J).
  Qed.
  Lemma process_all es out d d' : process_dir conv es out d = (d', Ok tt) -> converts conv (InDir es).
  Proof.
    intros H rel t J. apply holds_dir in J. destruct J as [[_ J]|(m & y & rel' & I & J & ->)]; [discriminate|].
    destruct (in_dir_all _ _ _ _ _ H m y I) as (e & e' & X). exact (entry_all y m out e e' X rel' t J).
  Qed.

  Lemma good_tree x : sound_tree x -> converts conv x -> good x.
  Proof.
    induction x as [t|es IH] using input_ind'; intros S C.
    - destruct (C [] t (holds_here _)) as (s & c & -> & E). econstructor; exact E.
    - constructor.
      + destruct (S [] es (holds_here _)) as [N D]. split; [exact N|]. intros n1 t n2 es2 A B E.
        apply (D n1 t n2 es2 A B). apply rs_name_spec. auto.
      + intros n x I. apply (IH n x I).
        * intros rel es2 J. apply (S (rel ++ [n])). econstructor; eassumption.
        * intros rel t J. apply (C (rel ++ [n])). econstructor; eassumption.
  Qed.
End Run.
