(** Properties C04, C05 (metadata), C07, C08: comparators and simple tests. *)
From Verif Require Import Base Lib Var Value Glob GlobSpec Comparator ComparatorSpec
  ComparatorProofs ComparatorProofs2.
From Coq Require Import Floats.SpecFloat.

  (** No regular expression engine is needed by the examples. *)
  Definition no_rx : text -> text -> option (list (option text)) := fun _ _ => None.

(** C04 is false of the code: the loop over the keys is not left when a key
    matches, so a later key that does not match makes the test false. *)
Theorem C04_any_key_suffices_refuted :
  exists sources keys s k,
    In s sources /\ In k keys /\
    key_matches ascii_lib no_rx COctet MIs (KVar s) (KVar k) /\
    string_test ascii_lib no_rx false COctet MIs false sources keys = TBool false [] /\
    string_test ascii_lib no_rx true COctet MIs false sources keys = TBool false [].
Proof.
  exists [VStr (lit "a")], [VStr (lit "a"); VStr (lit "b")], (VStr (lit "a")), (VStr (lit "a")).
  repeat split; try (left; reflexivity); vm_compute; reflexivity.
Qed.
Print Assumptions C04_any_key_suffices_refuted.

(** What does hold, for every library, comparator, match type that compares
    single values, list of sources and non-empty list of keys: the result is
    decided by the last key alone (and so is exact for single-key tests).
    [enull] = false is the 'string' test, true the 'environment' test, for which
    empty sources do not count.  Missing with respect to C04: the other keys. *)
Theorem C04_last_key_decides_partial :
  forall L rx, (forall c, chr_lower L c <> []) ->
  forall enull c m is_not sources keys k,
    single_value_match m ->
    (forall k', In k' (keys ++ [k]) -> few_wildcards L m (KVar k')) ->
    exists b set,
      string_test L rx enull c m is_not sources (keys ++ [k]) = TBool (xorb b is_not) set /\
      (b = true <-> exists s, In s sources /\ (enull = true -> v_is_empty s = false) /\
                              key_matches L rx c m (KVar s) (KVar k)).
Proof. exact string_test_last. Qed.
Print Assumptions C04_last_key_decides_partial.

Example C04_example :
  string_test ascii_lib no_rx false CCasemap (MMatches 2) false
    [VStr (lit "x"); VStr (lit "Hello")] ([VStr (lit "q")] ++ [VStr (lit "h*o")])
  = TBool true [(1, lit "ell")].
Proof. vm_compute. reflexivity. Qed.

(** C04, ':count': the number of non-empty sources is compared with each key, and
    one key is enough; in the environment test no source at all makes it false.
    ':list' asks the host about the distinct non-empty sources, or is false. *)
Theorem C04_count :
  forall L rx enull c r is_not sources keys,
    exists b, string_test L rx enull c (MCount r) is_not sources keys = TBool (xorb b is_not) [] /\
      let n := length (filter (fun s => negb (v_is_empty s)) sources) in
      (b = true <-> (enull = true -> n <> 0) /\
         exists k, In k keys /\ rel_number r (NInt (Z.of_nat n)) (v_number L k) = true).
Proof.
  intros. eexists. split; [reflexivity|]. cbv zeta. rewrite andb_true_iff, existsb_exists, orb_true_iff, Z.ltb_lt.
  destruct enull; simpl; intuition (try lia; try discriminate).
Qed.
Print Assumptions C04_count.
Theorem C04_list :
  forall L rx enull c is_not sources keys,
    (string_test L rx enull c MList is_not sources keys = TBool is_not [] /\
     forall s, In s sources -> v_text L s = []) \/
    exists l, string_test L rx enull c MList is_not sources keys = TListContains (map (v_text L) keys) l c /\
      l <> [] /\ NoDup l /\ (forall t, In t l <-> t <> [] /\ exists s, In s sources /\ v_text L s = t).
Proof. exact string_list. Qed.
Print Assumptions C04_list.

(** C05, metadata test: true exactly when the first annotation with the wanted
    name has a value that matches some key. *)
Theorem C05_metadata_any_key :
  forall L rx, (forall c, chr_lower L c <> []) ->
  forall store wanted c m is_not keys,
    single_value_match m ->
    (forall k, In k keys -> few_wildcards L m (KVar k)) ->
    exists b set,
      metadata_test L rx store wanted c m is_not keys = TBool (xorb b is_not) set /\
      (b = true <-> exists md value k,
          find (fun p => md_eq (fst p) wanted) store = Some (md, value) /\
          In k keys /\ key_matches L rx c m (KStr value) (KVar k)).
Proof. exact metadata_test_exact. Qed.
Print Assumptions C05_metadata_any_key.

Example C05_metadata_example :
  metadata_test ascii_lib no_rx [(MdMailbox (lit "INBOX") (lit "/private/x"), lit "YES")]
    (MdMailbox (lit "INBOX") (lit "/PRIVATE/x")) CCasemap MIs false [VStr (lit "yes"); VStr (lit "no")]
  = TBool true [].
Proof. vm_compute. reflexivity. Qed.

(** C05, metadataexists: true exactly when every named annotation is present
    (for a non-empty store). *)
Theorem C05_metadata_exists :
  forall store mailbox annotations is_not,
    store <> [] ->
    exists b, metadata_exists_test store mailbox annotations is_not = xorb b is_not /\
      (b = true <-> forall a, In a annotations ->
          exists m v, In (m, v) store /\ md_covers mailbox m a = true).
Proof.
  exact (fun store mailbox annotations is_not NE =>
    ex_intro _ _ (conj eq_refl (md_exists_spec store mailbox annotations NE))).
Qed.
Print Assumptions C05_metadata_exists.

Example C05_metadata_exists_example :
  metadata_exists_test [(MdServer (lit "/a"), []); (MdServer (lit "/b"), [])] None
    [lit "/B"; lit "/a"] false = true.
Proof. vm_compute. reflexivity. Qed.

(** C07: ':contains' means "occurs as a contiguous block", under the
    comparator's view of the texts. *)
Theorem C07_contains_is_substring :
  forall L rx, (forall c, chr_lower L c <> []) ->
  forall c v k, exists b x,
    compare1 L rx c MContains v k [] = CRes b x /\
    (b = true <-> k_text L k = [] \/
       exists before after, seen L c (k_text L v) = before ++ seen L c (k_text L k) ++ after).
Proof. exact (fun L rx H c v k => compare1_meets L rx H c MContains v k I). Qed.
Print Assumptions C07_contains_is_substring.

Example C07_contains_example :
  compare1 ascii_lib no_rx CCasemap MContains (KStr (lit "Hello World")) (KVar (VStr (lit "LO W"))) []
  = CRes true [].
Proof. vm_compute. reflexivity. Qed.

(** C07: ':is' is an equivalence relation for every comparator but
    i;ascii-numeric ... *)
Theorem C07_is_equivalence :
  forall L c, c <> CNumeric ->
    (forall a, cmp_is L c a a = true) /\
    (forall a b, cmp_is L c a b = cmp_is L c b a) /\
    (forall a b d, cmp_is L c a b = true -> cmp_is L c b d = true -> cmp_is L c a d = true).
Proof. exact is_equiv. Qed.
Print Assumptions C07_is_equivalence.

(** ... and identifies exactly the ASCII texts that are equal letter by letter
    up to ASCII case. *)
Theorem C07_is_ascii_casemap :
  forall L, (forall t, ascii_text t -> str_lower L t = lower_text t) ->
  forall a b, ascii_text (k_text L a) -> ascii_text (k_text L b) ->
    (cmp_is L CCasemap a b = true <->
     Forall2 (fun x y => lower_ascii x = lower_ascii y) (k_text L a) (k_text L b)).
Proof. exact is_ascii_exact. Qed.
Print Assumptions C07_is_ascii_casemap.

Example C07_is_example :
  cmp_is ascii_lib CCasemap (KStr (lit "INBOX")) (KVar (VStr (lit "inBox"))) = true /\
  cmp_is ascii_lib CCasemap (KStr (lit "INBOX")) (KVar (VStr (lit "inBo_"))) = false.
Proof. vm_compute. split; reflexivity. Qed.

(** Finding: outside ASCII, i;ascii-casemap identifies texts that differ in
    more than ASCII case, for any library that lower-cases 'É' to 'é'. *)
Theorem C07_non_ascii_refuted :
  forall L, str_lower L [201%N] = [233%N] -> str_lower L [233%N] = [233%N] ->
    cmp_is L CCasemap (KStr [201%N]) (KStr [233%N]) = true /\
    ~ Forall2 (fun x y => lower_ascii x = lower_ascii y) [201%N] [233%N].
Proof.
  intros L H1 H2. split.
  - unfold cmp_is. simpl. rewrite H1, H2. reflexivity.
  - intro H. inversion H. discriminate.
Qed.
Print Assumptions C07_non_ascii_refuted.

(** Finding: under i;ascii-numeric ':is' is not even reflexive: a header value
    that is not a number counts as 0, the same text as key as infinity. *)
Theorem C07_numeric_reflexive_refuted :
  forall L t, f64_parse L t = None -> parse_i64 t = None -> mem_ch c_dot t = false -> t <> [] ->
    cmp_is L CNumeric (KStr t) (KVar (VStr t)) = false.
Proof.
  intros L t H1 H2 H3 H4. unfold cmp_is, k_number, v_number, v_number_checked.
  rewrite H1. destruct t as [|x t]; [congruence|]. rewrite H3, H2. reflexivity.
Qed.
Print Assumptions C07_numeric_reflexive_refuted.

Example C07_numeric_reflexive_refuted_example :
  cmp_is ascii_lib CNumeric (KStr (lit "abc")) (KVar (VStr (lit "abc"))) = false.
Proof. vm_compute. reflexivity. Qed.

(** C08: what each operator means, for every comparator: [v] is the value of the
    message, [k] the key. *)
Theorem C08_relational_meaning :
  forall L c r v k, cmp_relational L c r v k = true <-> rel_holds L c r v k.
Proof. exact relational_meaning. Qed.
Print Assumptions C08_relational_meaning.

(** On integers the numeric order is that of the integers, and ':count' compares
    the count with the key in this order. *)
Theorem C08_integer_order :
  forall a b, n_cmp (NInt a) (NInt b) = Some (Z.compare a b).
Proof. reflexivity. Qed.
Print Assumptions C08_integer_order.
Theorem C08_count_meaning :
  forall r n k, rel_number r (NInt n) (NInt k) = true <->
    match r with
    | RGt => (k < n)%Z | RGe => (k <= n)%Z | RLt => (n < k)%Z | RLe => (n <= k)%Z
    | REq => n = k | RNe => n <> k
    end.
Proof.
  intros r n k. unfold rel_number. rewrite rel_cmp_meaning; [|apply n_eqb_cmp|apply n_cmp_anti].
  cbn [n_cmp]. rewrite (Z.compare_antisym n k). destruct (Z.compare_spec n k); destruct r; cbn [CompOpp];
    intuition (try discriminate; try congruence; try lia).
Qed.
Print Assumptions C08_count_meaning.

(** C08: the six relational operators agree with each other, for every
    comparator and all operands. *)
Theorem C08_relational_coherent :
  forall L c a b,
    let R r a b := cmp_relational L c r a b in
    R RGe a b = (R RGt a b || R REq a b) /\
    R RLe a b = (R RLt a b || R REq a b) /\
    R RNe a b = negb (R REq a b) /\
    R RLt a b = R RGt b a /\
    R RLe a b = R RGe b a /\
    R REq a b = R REq b a.
Proof. exact relational_coherent. Qed.
Print Assumptions C08_relational_coherent.

(** Exactly one of lt, eq, gt holds unless a number involved is NaN. *)
Theorem C08_trichotomy :
  forall L c a b,
    (c = CNumeric -> n_is_nan (k_number L a) = false /\ n_is_nan (k_number L b) = false) ->
    let R r := cmp_relational L c r a b in
    (R RLt = true /\ R REq = false /\ R RGt = false) \/
    (R RLt = false /\ R REq = true /\ R RGt = false) \/
    (R RLt = false /\ R REq = false /\ R RGt = true).
Proof. exact relational_one. Qed.
Print Assumptions C08_trichotomy.

(** With a NaN none of them holds. *)
Theorem C08_nan :
  forall L a b, n_is_nan (k_number L a) = true \/ n_is_nan (k_number L b) = true ->
    let R r := cmp_relational L CNumeric r a b in
    R RLt = false /\ R REq = false /\ R RGt = false /\ R RNe = true.
Proof. exact relational_nan. Qed.
Print Assumptions C08_nan.

(** The same for ':count', which compares numbers. *)
Theorem C08_count_coherent :
  forall a b, rel_coherent rel_number a b /\
    (n_is_nan a = false -> n_is_nan b = false -> rel_exactly_one rel_number a b).
Proof. exact (fun a b => conj (rel_number_coherent a b) (rel_number_one a b)). Qed.
Print Assumptions C08_count_coherent.

Example C08_example :
  rel_number RLt (NInt 3) (NFloat (f64_of_Z 4)) = true /\
  rel_number REq (NInt 4) (NFloat (f64_of_Z 4)) = true /\
  rel_text RGt (lit "b") (lit "ab") = true.
Proof. vm_compute. repeat split. Qed.

(** Finding: equality of numbers is not transitive, because integers are
    compared with floats after rounding to 53 bits. *)
Theorem C08_equality_transitive_refuted :
  exists a b c, rel_number REq a b = true /\ rel_number REq b c = true /\ rel_number REq a c = false.
Proof.
  exists (NInt (2 ^ 53)), (NFloat (f64_of_Z (2 ^ 53))), (NInt (2 ^ 53 + 1)).
  vm_compute. repeat split.
Qed.
Print Assumptions C08_equality_transitive_refuted.
