(** Property theorems C22-C25: the derived text (de)serialisers, list and union types. *)
From Coq Require Import List NArith ZArith Bool Ascii String Lia.
From Verif Require Import Str StrFacts Tz GTypes Ints IntsProofs Dur DateTime Serde SpecSerde SerdeProofs.
Import ListNotations.
Local Open Scope N_scope.

(** C22: an element written by the derived serialiser is read as the displayed text without
    the blanks at its ends, whatever follows; an untrimmed text (in particular the empty one)
    comes back as it is. *)
Theorem C22_element_round_trip : forall (A B : Type) (display : A -> str) (from_str : str -> res B)
    name start_name v more,
  fst (default_deserialize from_str
        (channel (default_serialize display name start_name false v) ++ more)) =
    from_str (xml_trim (display v)) /\
  (untrimmed (display v) -> xml_trim (display v) = display v).
Proof.
  exact (fun A B d f n sn v more => conj (serde_round d f n sn v more) (xml_trim_id (d v))).
Qed.
Print Assumptions C22_element_round_trip.
Example C22_ex1 :
  fst (default_deserialize integer_from_str
        (channel (default_serialize integer_display (lit "Integer") (Some (lit "n")) false (-5)%Z))) = Ok (-5)%Z.
Proof. reflexivity. Qed.
Example C22_ex2 : xml_trim (lit " a b ") = lit "a b". Proof. reflexivity. Qed.

(** C22: the events written. *)
Theorem C22_written_events : forall (A : Type) (display : A -> str) name v,
  default_serialize display name None true v = [WChars (display v)] /\
  (forall n, default_serialize display name (Some n) true v = [WChars (display v)]) /\
  default_serialize display name None false v = [WStart name; WChars (display v); WEnd] /\
  (forall n, default_serialize display name (Some n) false v = [WStart n; WChars (display v); WEnd]).
Proof. repeat split. Qed.
Print Assumptions C22_written_events.

(** C22: reading any event stream: text directly after a start, no text, no start.  The
    reader is left at the text, which is not consumed. *)
Theorem C22_read_events : forall (A : Type) (from_str : str -> res A) es,
  (forall n t r, es = RStart n :: RChars t :: r ->
     default_deserialize from_str es = (from_str t, RChars t :: r)) /\
  (forall n r, es = RStart n :: r -> (forall t r', r <> RChars t :: r') ->
     default_deserialize from_str es = (from_str [], r)) /\
  ((forall n r, es <> RStart n :: r) -> default_deserialize from_str es = (Err, es)).
Proof. exact @deserialize_start. Qed.
Print Assumptions C22_read_events.
Example C22_ex3 : fst (default_deserialize integer_from_str [RChars (lit "1")]) = Err /\
  fst (default_deserialize integer_from_str [RStart (lit "n"); ROther; RChars (lit "1"); REnd]) = Err.
Proof. repeat split. Qed.

(** C22: for the lexical types of xsd-types the element text is exactly the displayed text,
    so the round trips C08, C11, C16, C19-C21 carry over to elements. *)
Theorem C22_lexical_types : forall name start_name more,
  let rt {A B} (d : A -> str) (f : str -> res B) :=
    forall v, fst (default_deserialize f (channel (default_serialize d name start_name false v) ++ more)) = f (d v) in
  rt integer_display integer_from_str /\
  rt non_negative_integer_display non_negative_integer_from_str /\
  rt positive_integer_display positive_integer_from_str /\
  rt non_positive_integer_display non_positive_integer_from_str /\
  rt negative_integer_display negative_integer_from_str /\
  rt gday_display gday_from_str /\ rt gmonth_display gmonth_from_str /\
  rt gmonthday_display gmonthday_from_str /\
  (forall chk, rt dur_display (dur_from_str chk)) /\
  (forall lo hi, rt date_display (date_from_str lo hi)) /\
  rt time_display time_from_str /\
  (forall lo hi, rt datetime_display (datetime_from_str lo hi)).
Proof. exact element_round_trip. Qed.
Print Assumptions C22_lexical_types.

Theorem C22_gyear_texts : forall chk s,
  ((exists g, gyear_display chk g = Ok s) \/ (exists g, gyearmonth_display chk g = Ok s)) ->
  xml_trim s = s.
Proof.
  exact (fun chk s H => xml_trim_id s (plain_untrimmed s
    match H with or_introl (ex_intro _ g E) => res_plain_gyear chk g s E
               | or_intror (ex_intro _ g E) => res_plain_gyearmonth chk g s E end)).
Qed.
Print Assumptions C22_gyear_texts.

(** C22: blanks at the ends of a string value are lost. *)
Theorem C22_string_round_trip_refuted : exists s : str,
  fst (default_deserialize tuple_string_from_str
        (channel (default_serialize (fun x => x) (lit "String") None false s))) <> Ok s.
Proof. exists (lit " a"). discriminate. Qed.
Print Assumptions C22_string_round_trip_refuted.

(** C22: a string value comes back as it is unless it begins or ends with a blank of XML;
    other white space (no-break spaces, for example) is kept, and so are all blanks inside. *)
Theorem C22_string_values : forall name start_name more w s w',
  (forall c, In c (w ++ w') -> xml_blank c) -> untrimmed s ->
  fst (default_deserialize tuple_string_from_str
        (channel (default_serialize (fun x => x) name start_name false (w ++ s ++ w')) ++ more)) = Ok s.
Proof.
  intros name sn more w s w' B U. unfold default_deserialize, default_serialize. rewrite serde_round. unfold tuple_string_from_str. f_equal. apply xml_trim_around; auto.
Qed.
Print Assumptions C22_string_values.
Example C22_ex4 : fst (default_deserialize tuple_string_from_str
  (channel (default_serialize (fun x => x) (lit "String") None false [32; 160; 97; 32; 98; 8195; 10]))) = Ok [160; 97; 32; 98; 8195].
Proof. reflexivity. Qed.

(** C23: a list text is its white-space separated tokens (one reading exists and it is
    unique); the parse is the list of the tokens' values, dropping tokens that do not parse.
    It never fails and panics only if the item parser does. *)
Theorem C23_list_language : forall (A : Type) (from_str : str -> res A) s,
  exists ts, tokens s ts /\ (forall ts', tokens s ts' -> ts' = ts) /\
    (forall l, tuple_vec_from_str from_str s = Ok l <-> parses from_str ts l) /\
    tuple_vec_from_str from_str s <> Err /\
    (tuple_vec_from_str from_str s = Panic <-> exists t, In t ts /\ from_str t = Panic).
Proof.
  intros A f s. exists (split_whitespace s). split; [apply tokens_total|]. split.
  - intros ts' H. symmetry. apply tokens_split, H.
  - apply vec_language, tokens_total.
Qed.
Print Assumptions C23_list_language.
Example C23_ex1 : tuple_vec_from_str integer_from_str (lit "  1 -2 x 3 ") = Ok [1; -2; 3]%Z.
Proof. reflexivity. Qed.

(** C23: round trip. *)
Theorem C23_list_round_trip : forall (A : Type) (from_str : str -> res A) (display : A -> str) l,
  (forall a, In a l -> solid (display a) /\ from_str (display a) = Ok a) ->
  tuple_vec_from_str from_str (tuple_vec_display display l) = Ok l.
Proof. exact @vec_round_trip. Qed.
Print Assumptions C23_list_round_trip.
Theorem C23_integer_list_round_trip : forall l : list Z,
  tuple_vec_from_str integer_from_str (tuple_vec_display integer_display l) = Ok l.
Proof.
  intros l. apply vec_round_trip. intros z _. split; [apply integer_solid|apply ints_round_trip].
Qed.
Print Assumptions C23_integer_list_round_trip.
Example C23_ex2 : tuple_vec_display integer_display [1; -2; 3]%Z = lit "1 -2 3". Proof. reflexivity. Qed.

(** C23: a list item that does not parse is dropped silently; a list of strings with blanks
    in an item changes its length. *)
Theorem C23_all_items_refuted :
  (exists s : str, exists l : list Z, tuple_vec_from_str integer_from_str s = Ok l /\
     (List.length l < List.length (split_whitespace s))%nat) /\
  (exists l : list str,
     tuple_vec_from_str tuple_string_from_str (tuple_vec_display (fun x => x) l) <> Ok l).
Proof.
  split.
  - exists (lit "1 x"), [1]%Z. split; [reflexivity|]. apply Nat.ltb_lt. reflexivity.
  - exists [lit "a b"]. discriminate.
Qed.
Print Assumptions C23_all_items_refuted.

(** C24: first match. *)
Theorem C24_union_first_match : forall (V : Type) (ms : list (member V)) s,
  (forall i v, union_parse 0 ms s = Ok (Known i v) <->
     exists m, nth_error ms i = Some m /\ m_parse m s = Ok v /\
       forall j m', (j < i)%nat -> nth_error ms j = Some m' -> m_parse m' s = Err) /\
  (forall t, union_parse 0 ms s = Ok (Unknown t) <->
     t = s /\ forall m, In m ms -> m_parse m s = Err) /\
  union_parse 0 ms s <> Err.
Proof. exact @union_first. Qed.
Print Assumptions C24_union_first_match.

(** A union of xs:integer and xs:string-like text, used in the examples. *)
Definition int_or_text : list (member (Z + str)) :=
  [ {| m_parse := fun s => rmap (fun n => inl (Z.of_N n)) (positive_integer_from_str s);
       m_display := fun v => match v with inl z => integer_display z | inr s => s end |};
    {| m_parse := fun s => rmap inl (integer_from_str s);
       m_display := fun v => match v with inl z => integer_display z | inr s => s end |} ].
Example C24_ex1 : union_parse 0 int_or_text (lit "-5") = Ok (Known 1 (inl (-5)%Z)). Proof. reflexivity. Qed.
Example C24_ex2 : union_parse 0 int_or_text (lit "5") = Ok (Known 0 (inl 5%Z)). Proof. reflexivity. Qed.
Example C24_ex3 : union_parse 0 int_or_text (lit "x") = Ok (Unknown (lit "x")). Proof. reflexivity. Qed.

(** C25: exactly which union values survive an element; the unknown text never does unless
    it is empty. *)
Theorem C25_union_round_trip : forall (V : Type) (ms : list (member V)) name start_name more,
  (forall i v m, nth_error ms i = Some m ->
     (fst (union_deserialize ms (channel (union_serialize ms name start_name false (Known i v)) ++ more))
        = Ok (Known i v) <->
      m_parse m (xml_trim (m_display m v)) = Ok v /\
      forall j m', (j < i)%nat -> nth_error ms j = Some m' ->
        m_parse m' (xml_trim (m_display m v)) = Err)) /\
  (forall s, fst (union_deserialize ms (channel (union_serialize ms name start_name false (Unknown s)) ++ more))
     = union_parse 0 ms []) /\
  (forall s, fst (union_deserialize ms (channel (union_serialize ms name start_name false (Unknown s)) ++ more))
     = Ok (Unknown s) <-> s = [] /\ forall m, In m ms -> m_parse m [] = Err).
Proof. exact @union_round. Qed.
Print Assumptions C25_union_round_trip.

Theorem C25_union_round_trip_refuted :
  (exists v, union_text int_or_text (Known 1 v) = lit "5" /\
     fst (union_deserialize int_or_text (channel (union_serialize int_or_text (lit "U") None false (Known 1 v))))
       = Ok (Known 0 v)) /\
  (exists s, union_parse 0 int_or_text s = Ok (Unknown s) /\
     fst (union_deserialize int_or_text (channel (union_serialize int_or_text (lit "U") None false (Unknown s))))
       <> Ok (Unknown s)).
Proof.
  split.
  - exists (inl 5%Z). split; reflexivity.
  - exists (lit "x"). split; [reflexivity|discriminate].
Qed.
Print Assumptions C25_union_round_trip_refuted.
