(** Property theorems C79: the functions of Rust's standard library on which the rest stands. *)
From Coq Require Import Arith NArith ZArith Bool Ascii String List.
From Verif Require Import Str StrFacts SpecLex SpecStr StrProofs.
Import ListNotations.
Local Open Scope string_scope.
Local Open Scope list_scope.
Local Open Scope N_scope.

(** C79: literals of the code are their characters; texts are compared character by character. *)
Theorem C79_literals : lit "" = [] /\ forall c s, lit (String c s) = N_of_ascii c :: lit s.
Proof. split; reflexivity. Qed.
Print Assumptions C79_literals.
Theorem C79_equal : forall a b, (str_eqb a b = true <-> a = b) /\ (is_empty a = true <-> a = []).
Proof. intros a b. split; [apply str_eqb_eq|destruct a; split; cbn; auto; discriminate]. Qed.
Print Assumptions C79_equal.
(** The classes of characters: in ASCII those of the listed characters, beyond ASCII those of the
    Unicode tables; white space in all of Unicode. *)
Theorem C79_characters : forall u c,
  (is_ascii_digit c = true <-> In c digits) /\
  (is_ascii_alpha c = true <-> In c small \/ In c capital) /\
  (is_numeric u c = true <-> In c digits \/ 128 <= c /\ u_numeric u c = true) /\
  (is_lowercase u c = true <-> In c small \/ 128 <= c /\ u_lower u c = true) /\
  (is_uppercase u c = true <-> In c capital \/ 128 <= c /\ u_upper u c = true) /\
  (is_alphanumeric u c = true <-> In c digits \/ In c small \/ In c capital \/ 128 <= c /\ (u_alphabetic u c = true \/ u_numeric u c = true)) /\
  (is_whitespace c = true <-> In c white).
Proof.
  intros u c. exact (conj (digit_iff c) (conj (alpha_iff c) (conj (numeric_iff u c) (conj (lowercase_iff u c) (conj (uppercase_iff u c) (conj (alphanumeric_iff u c) (white_iff c))))))).
Qed.
Print Assumptions C79_characters.
(** Changing the case moves ASCII letters by 32 and nothing else. *)
Theorem C79_case : forall c,
  (In c capital -> to_ascii_lowercase c = c + 32) /\ (~ In c capital -> to_ascii_lowercase c = c) /\
  (In c small -> to_ascii_uppercase c + 32 = c) /\ (~ In c small -> to_ascii_uppercase c = c).
Proof. intros c. destruct (lower_to c), (upper_to c). auto. Qed.
Print Assumptions C79_case.
Example C79_ex1 : map to_ascii_uppercase (lit "tZ9-az") = lit "TZ9-AZ" /\ map to_ascii_lowercase (lit "tZ9-AZ@[") = lit "tz9-az@[" /\
  filter is_whitespace [31; 32; 160; 8203; 8202; 6158; 12288; 65279] = [32; 160; 8202; 12288].
Proof. vm_compute. auto. Qed.

(** Lengths are those of the UTF-8 text; slices end where characters end, or the program stops. *)
Theorem C79_bytes : forall s, byte_len s = List.length (utf8 s).
Proof. exact bytes_length. Qed.
Print Assumptions C79_bytes.
Theorem C79_slices : forall s i j,
  (forall m, slice s i j = Ok m <-> part_of s i j m) /\ (slice s i j = Panic <-> ~ exists m, part_of s i j m) /\
  (forall m, slice_from s i = Ok m <-> exists a, s = a ++ m /\ List.length (utf8 a) = i) /\
  (slice_from s i = Panic <-> ~ exists m a, s = a ++ m /\ List.length (utf8 a) = i).
Proof.
  intros s i j. exact (conj (fun m => slice_part s i j m) (conj (slice_panics s i j) (conj (fun m => slice_from_part s i m) (slice_from_panics s i)))).
Qed.
Print Assumptions C79_slices.
(** "aé€" and a character outside the basic plane. *)
Example C79_ex2 : let s := [97; 233; 8364; 119070] in
  utf8 s = [97; 195; 169; 226; 130; 172; 240; 157; 132; 158] /\ byte_len s = 10%nat /\
  slice s 1 6 = Ok [233; 8364] /\ slice s 0 2 = Panic /\ slice s 4 3 = Panic /\ slice s 0 11 = Panic /\ slice_from s 6 = Ok [119070] /\ slice_from s 7 = Panic /\ slice_from s 10 = Ok [].
Proof. vm_compute. repeat split. Qed.

(** Searching for characters and texts. *)
Theorem C79_search : forall c s p,
  (contains c s = true <-> In c s) /\ count c s = count_occ N.eq_dec s c /\
  (starts_with p s = true <-> exists t, s = p ++ t) /\ (ends_with p s = true <-> exists t, s = t ++ p) /\
  (forall t, strip_prefix c s = Some t <-> s = c :: t) /\ (forall t, strip_suffix c s = Some t <-> s = t ++ [c]).
Proof.
  intros c s p. exact (conj (contains_iff c s) (conj (count_occ_eq c s) (conj (starts_iff p s) (conj (ends_iff p s) (conj (strip_prefix_spec c s) (strip_suffix_spec c s)))))).
Qed.
Print Assumptions C79_search.
(** Splitting before the occurrence with the number [k], at all occurrences, after the last one. *)
Theorem C79_split : forall c s,
  (forall k a b, split_before c k s = Some (a, b) <-> s = a ++ b /\ count_occ N.eq_dec a c = k /\ exists t, b = c :: t) /\
  (forall l, split_on c s = l <-> split_by c s l) /\
  (forall l, last_segment c s = l <-> after_last c s l).
Proof. intros c s. exact (conj (fun k a b => split_before_iff c k s a b) (conj (split_on_iff c s) (last_segment_iff c s))). Qed.
Print Assumptions C79_split.
Example C79_ex3 : split_on 58 (lit "a::b:") = [lit "a"; []; lit "b"; []] /\ split_on 58 [] = [[]] /\ last_segment 58 (lit "x:y:zz") = lit "zz" /\ last_segment 58 (lit "zz") = lit "zz" /\
  split_before 45 1 (lit "2020-01-02") = Some (lit "2020-01", lit "-02") /\ split_before 45 2 (lit "2020-01-02") = None /\ ends_with (lit "Type") (lit "Type") = true /\ ends_with (lit "Type") (lit "Types") = false.
Proof. vm_compute. repeat split. Qed.

(** Words, trimming, lines, joining. *)
Theorem C79_words : forall s,
  (forall l, split_whitespace s = l <-> words s l) /\
  (forall t, trim_start s = t <-> exists a, s = a ++ t /\ blank a /\ no_white_first t) /\
  (forall t, trim s = t <-> exists a b, s = a ++ t ++ b /\ blank a /\ blank b /\ no_white_first t /\ no_white_last t).
Proof. intros s. exact (conj (words_iff s) (conj (trim_start_iff s) (trim_iff s))). Qed.
Print Assumptions C79_words.
Theorem C79_lines : forall s l, lines s = l <-> lines_of s l.
Proof. exact lines_iff. Qed.
Print Assumptions C79_lines.
Theorem C79_join : forall sep l s, join sep l = s <-> joined sep l s.
Proof. exact join_iff. Qed.
Print Assumptions C79_join.
Example C79_ex4 : let nl := [10] in let cr := [13] in
  split_whitespace (lit "  one two" ++ [160] ++ lit "three ") = [lit "one"; lit "two"; lit "three"] /\ trim ([12288] ++ lit " a b " ++ [9]) = lit "a b" /\
  lines (lit "a" ++ cr ++ nl ++ nl ++ lit "b" ++ cr ++ cr ++ nl ++ lit "c" ++ cr) = [lit "a"; []; lit "b" ++ cr; lit "c" ++ cr] /\ lines (lit "a" ++ nl) = [lit "a"] /\ lines nl = [[]] /\ lines [] = [] /\
  join (lit ", ") [lit "a"; lit "b"; []] = lit "a, b, ".
Proof. vm_compute. repeat split. Qed.

(** Numbers are read with an optional plus sign, signed ones with an optional sign, up to the
    limit of their type; they are written in decimal without leading zeros, or with as many as a
    width asks for. *)
Theorem C79_read : forall s,
  (forall max n, parse_unsigned max s = Some n <-> n <= max /\ (num s n \/ exists t, s = lit "+" ++ t /\ num t n)) /\
  (forall z, parse_i32 s = Some z <-> (- 2 ^ 31 <= z < 2 ^ 31)%Z /\ signed s z) /\
  u32_max = 2 ^ 32 - 1 /\ u64_max = 2 ^ 64 - 1.
Proof. intros s. split; [exact (fun max n => parse_unsigned_iff max s n)|]. split; [exact (parse_i32_iff s)|]. split; reflexivity. Qed.
Print Assumptions C79_read.
Theorem C79_write : forall s,
  (forall n, dec n = s <-> num s n /\ shortened s) /\
  (forall w n, pad w n = s <-> num s n /\ widened w s) /\
  (forall w z, pad_signed w z = s <-> (0 <= z)%Z /\ num s (Z.to_N z) /\ widened w s \/ (z < 0)%Z /\ exists t, s = lit "-" ++ t /\ num t (Z.to_N (- z)) /\ widened (w - 1) t).
Proof. intros s. exact (conj (fun n => dec_iff n s) (conj (fun w n => pad_iff w n s) (fun w z => pad_signed_iff w z s))). Qed.
Print Assumptions C79_write.
Example C79_ex5 : parse_unsigned 255 (lit "+0255") = Some 255 /\ parse_unsigned 255 (lit "256") = None /\ parse_unsigned 255 (lit "-0") = None /\ parse_unsigned 255 (lit "+") = None /\
  parse_i32 (lit "-2147483648") = Some (-2147483648)%Z /\ parse_i32 (lit "2147483648") = None /\ parse_i32 (lit "+7") = Some 7%Z /\
  dec 0 = lit "0" /\ dec 1907 = lit "1907" /\ pad 4 7 = lit "0007" /\ pad 2 190 = lit "190" /\ pad_signed 5 (-42) = lit "-0042" /\ pad_signed 4 42 = lit "0042" /\ pad_signed 2 (-2020) = lit "-2020".
Proof. vm_compute. repeat split. Qed.
