(** Properties C05 (header, exists and body tests), C06, C49: the parsed message. *)
From Verif Require Import Base Lib Var Value Glob GlobSpec Comparator ComparatorSpec
  ComparatorProofs2 PropertiesCompare Message MessageSpec MessageProofs MessageProofs2 HeaderShowSpec HeaderShowProofs.
From Coq Require Import Sorting.Sorted.

(** A message used by the examples: multipart/mixed of a text, and a
    multipart/alternative of an HTML text and an attached message with one part. *)
Definition hd (name value : string) : header :=
  {| h_name := lit name; h_raw := false; h_val := HText (lit value); h_plain := lit value; h_bytes := 0 |}.
Definition inner_msg : list part := [Part [hd "Subject" "inner"] None (BText (lit "deep"))].
Definition sample : list part :=
  [ Part [hd "Received" "a"; hd "Subject" "hi"; hd "received" "b"; hd "Received" "c"] None (BMulti [1; 2]);
    Part [hd "X-A" "1"] None (BText (lit "hello"));
    Part [] None (BMulti [3; 4]);
    Part [hd "X-B" "2"] None (BHtml (lit "<b>"));
    Part [hd "X-C" "3"] None (BMessage inner_msg) ].
Definition no_mp : mailparser := {| hn_parse := fun t => Some t; parse_ct := fun _ => HOther |}.

Lemma sample_children a b : child sample a b <-> (a = 0 /\ (b = 1 \/ b = 2)) \/ (a = 2 /\ (b = 3 \/ b = 4)).
Proof.
  unfold child. split.
  - intros (p & E & I). destruct a as [|[|[|[|[|a]]]]]; simpl in E; try (injection E as <-; simpl in I; intuition lia).
    destruct a; discriminate.
  - intros [[-> H]|[-> H]]; eexists; (split; [reflexivity|]); simpl; intuition lia.
Qed.
Lemma sample_wf : well_formed sample.
Proof.
  constructor.
  - intros a b H. apply sample_children in H. simpl. lia.
  - intros a1 a2 b H1 H2. apply sample_children in H1, H2. lia.
  - intros a p E. destruct a as [|[|[|[|[|a]]]]]; simpl in E; try (injection E as <-; simpl; repeat constructor; simpl; intuition lia).
    destruct a; discriminate.
Qed.
Lemma single_wf p : part_children p = [] -> well_formed [p].
Proof.
  intro E. assert (NC : forall a b, ~ child [p] a b).
  { intros a b (q & X & I). destruct a as [|a]; [|destruct a; discriminate]. injection X as <-. rewrite E in I. contradiction. }
  constructor.
  - intros a b H. destruct (NC _ _ H).
  - intros a1 a2 b H. destruct (NC _ _ H).
  - intros a q X. destruct a as [|a]; [|destruct a; discriminate]. injection X as <-. rewrite E. constructor.
Qed.
Lemma sample_deep : wf_deep sample.
Proof.
  constructor; [exact sample_wf|]. intros p ps I E. simpl in I. destruct I as [<-|[<-|[<-|[<-|[<-|[]]]]]]; simpl in E; try discriminate.
  injection E as <-. constructor; [apply single_wf; reflexivity|]. intros q qs [<-|[]] X. discriminate.
Qed.

(** C05: the header test is true exactly when some value of some selected header
    of a visited part matches some key; ':not' inverts it. *)
Theorem C05_header_any_value_any_key :
  forall L rx M, (forall c, chr_lower L c <> []) ->
  forall parts current names index anychild opts c m is_not keys,
    well_formed parts -> current < length parts ->
    single_value_match m ->
    (forall k, In k keys -> few_wildcards L m (KVar k)) ->
    exists b set,
      header_test L rx M parts current names index anychild opts c m is_not keys
        = Some (TBool (xorb b is_not) set) /\
      (b = true <-> exists i p name pos h v k,
         looked_at parts current anychild i p /\ In name names /\
         selected index name (p_headers p) pos h /\
         shows M h opts v /\ In k keys /\
         key_matches L rx c m (KStr v) (KVar k)).
Proof.
  intros L rx M NE parts current names index anychild opts c m is_not keys W Lt SV FW.
  destruct (header_test_exact L rx M NE parts current names index anychild opts c m is_not keys W Lt SV FW) as (b & set & E & H).
  exists b, set. split; [exact E|]. rewrite H.
  split; intros (i & p & name & pos & h & v & k & A & B & C & D & F); exists i, p, name, pos, h, v, k;
    apply shows_values in D; tauto.
Qed.
Print Assumptions C05_header_any_value_any_key.

Example C05_header_example :
  header_test ascii_lib no_rx no_mp sample 0 [lit "X-None"; lit "RECEIVED"] None false MoNone CCasemap MIs false
    [VStr (lit "zzz"); VStr (lit "C")] = Some (TBool true []) /\
  header_test ascii_lib no_rx no_mp sample 0 [lit "RECEIVED"] (Some (-2)%Z) false MoNone CCasemap MIs false
    [VStr (lit "zzz"); VStr (lit "C")] = Some (TBool false []) /\
  header_test ascii_lib no_rx no_mp sample 0 [lit "x-b"] None true MoNone CCasemap MIs false
    [VStr (lit "2")] = Some (TBool true []).
Proof. vm_compute. auto. Qed.

(** C05, exists test: true exactly when each named header occurs in some visited
    part.  The model has the names after parsing: names that HeaderName::parse
    refuses are dropped, so that a test left with no name is true. *)
Theorem C05_exists_every_name :
  forall parts current names anychild is_not,
    well_formed parts -> current < length parts ->
    exists b, exists_test parts current names anychild is_not = Some (xorb b is_not) /\
      (b = true <-> forall n, In n names -> exists i p h,
         looked_at parts current anychild i p /\ In h (p_headers p) /\ hn_eqb (h_name h) n = true).
Proof. exact exists_test_exact. Qed.
Print Assumptions C05_exists_every_name.

Example C05_exists_example :
  exists_test sample 0 [lit "subject"; lit "X-B"] true false = Some true /\
  exists_test sample 0 [lit "subject"; lit "X-B"] false false = Some false /\
  exists_test sample 0 [] false false = Some true.
Proof. vm_compute. auto. Qed.

(** C05, body test: true exactly when the text of some part below the current
    one (nested messages included) that passes the content filter matches a key. *)
Theorem C05_body_any_part_any_key :
  forall L rx, (forall c, chr_lower L c <> []) ->
  forall parts current filter (bt : part -> option text) c m is_not keys,
    wf_deep parts -> single_value_match m ->
    exists b, body_test L rx parts current filter bt c m is_not keys = Some (TBool (xorb b is_not) []) /\
      (b = true <-> exists path p v k,
         deep_at parts current path p /\ passes filter p = true /\
         bt p = Some v /\ In k keys /\ key_matches L rx c (plain_mtype m) (KStr v) (KVar k)).
Proof. exact body_test_exact. Qed.
Print Assumptions C05_body_any_part_any_key.

Definition raw_text (p : part) : option text :=
  match p_body p with BText t | BHtml t => Some t | _ => None end.
Example C05_body_example :
  body_test ascii_lib no_rx sample 0 [CtTypeSubtype (lit "text") (lit "plain")] raw_text CCasemap MContains false
    [VStr (lit "EEP")] = Some (TBool true []) /\
  body_test ascii_lib no_rx sample 0 [CtTypeSubtype (lit "text") (lit "html")] raw_text CCasemap MContains false
    [VStr (lit "EEP")] = Some (TBool false []).
Proof. vm_compute. auto. Qed.

(** C06: the headers handed to a header test or edit are exactly the selected
    ones, top to bottom, and at most one per part and name with ':index'. *)
Theorem C06_selection_exact :
  forall index name headers pos h,
    In (pos, h) (select_headers index name headers) <-> selected index name headers pos h.
Proof. exact select_spec. Qed.
Print Assumptions C06_selection_exact.

Theorem C06_selection_order :
  forall index name headers,
    StronglySorted lt (map fst (select_headers index name headers)) /\
    (index <> None -> length (select_headers index name headers) <= 1).
Proof. exact select_order. Qed.
Print Assumptions C06_selection_order.

Theorem C06_every_part_and_name :
  forall parts current names index anychild,
    well_formed parts -> current < length parts ->
    exists l, find_headers parts current names index anychild = Some l /\
      (forall i pos h, In {| l_part := i; l_pos := pos; l_header := h |} l <->
         exists p name, looked_at parts current anychild i p /\ In name names /\
           selected index name (p_headers p) pos h).
Proof. exact find_headers_spec. Qed.
Print Assumptions C06_every_part_and_name.

Example C06_example :
  map fst (select_headers (Some 2%Z) (lit "Received") (p_headers (nth 0 sample (Part [] None (BMulti []))))) = [2] /\
  map fst (select_headers (Some (-3)%Z) (lit "Received") (p_headers (nth 0 sample (Part [] None (BMulti []))))) = [0] /\
  map fst (select_headers (Some 4%Z) (lit "Received") (p_headers (nth 0 sample (Part [] None (BMulti []))))) = [] /\
  map fst (select_headers (Some 0%Z) (lit "Received") (p_headers (nth 0 sample (Part [] None (BMulti []))))) = [] /\
  map fst (select_headers None (lit "Received") (p_headers (nth 0 sample (Part [] None (BMulti []))))) = [0; 2; 3].
Proof. vm_compute. auto 6. Qed.

(** C49: ':anychild' visits the part and exactly its descendants, each once. *)
Theorem C49_anychild_visits_subtree_once :
  forall parts root, well_formed parts -> root < length parts ->
    exists l, subparts parts root true = Some l /\ NoDup (map fst l) /\
      (forall i p, In (i, p) l <-> reaches parts root i /\ nth_error parts i = Some p).
Proof.
  exact (fun parts root W H => match subparts_exact parts root W H with
    | ex_intro _ l (conj a (conj _ (conj b c))) => ex_intro _ l (conj a (conj b c)) end).
Qed.
Print Assumptions C49_anychild_visits_subtree_once.

(** Without ':anychild' only the part itself. *)
Theorem C49_plain_visits_one :
  forall parts root p, nth_error parts root = Some p -> subparts parts root false = Some [(root, p)].
Proof. exact subparts_self. Qed.
Print Assumptions C49_plain_visits_one.

(** The part list of replace, enclose and foreverypart: the part (when asked
    for) and its descendants, each once.  For the root the code lists all parts
    of the message, hence the extra hypothesis. *)
Theorem C49_nested_ids_once :
  forall parts cur inc, well_formed parts -> cur < length parts ->
    (cur = 0 -> forall i, i < length parts -> reaches parts 0 i) ->
    exists l, nested_ids parts cur inc = Some l /\ NoDup l /\
      (forall i, In i l <-> reaches parts cur i /\ (inc = true \/ i <> cur)).
Proof. exact nested_ids_exact. Qed.
Print Assumptions C49_nested_ids_once.

(** The body test also enters attached messages: every part at every depth is
    visited once. *)
Theorem C49_body_visits_nested_once :
  forall parts root, wf_deep parts ->
    exists ll, deep_parts parts root = Some (map snd ll) /\ NoDup (map fst ll) /\
      (forall path q, In (path, q) ll <-> deep_at parts root path q).
Proof. exact deep_parts_exact. Qed.
Print Assumptions C49_body_visits_nested_once.

Example C49_example :
  option_map (map fst) (subparts sample 2 true) = Some [2; 3; 4] /\
  nested_ids sample 2 false = Some [3; 4] /\
  option_map (map raw_text) (deep_parts sample 2) = Some [None; Some (lit "<b>"); None; Some (lit "deep")] /\
  well_formed sample /\ wf_deep sample.
Proof.
  split; [vm_compute; reflexivity|]. split; [vm_compute; reflexivity|]. split; [vm_compute; reflexivity|].
  split; [exact sample_wf|exact sample_deep].
Qed.
Example C49_root_example : (forall i, i < length sample -> reaches sample 0 i) /\ nested_ids sample 0 true = Some [0;1;2;3;4].
Proof.
  split; [|reflexivity]. intros i H. assert (R0 : reaches sample 0 0) by (constructor; simpl; lia).
  assert (R2 : reaches sample 0 2) by (eapply reach_child; [exact R0|apply sample_children; lia]).
  assert (E : i = 0 \/ (i = 1 \/ i = 2) \/ i = 3 \/ i = 4) by (simpl in H; lia).
  destruct E as [->|[E|E]]; [exact R0| |]; (eapply reach_child; [|apply sample_children]); [exact R0|lia|exact R2|lia].
Qed.

(** C56: ':over' and ':under' are strict, so a message of exactly the given size is
    neither; ':not' inverts. *)
Theorem C56_size_strict :
  forall size limit is_not,
    size_test size true limit is_not = xorb (Nat.ltb limit size) is_not /\
    (size_test size true limit false = true <-> limit < size) /\
    (size_test size false limit false = true <-> size < limit) /\
    (size_test size true limit true = true <-> size <= limit) /\
    (size_test size false limit true = true <-> limit <= size).
Proof.
  intros. unfold size_test. split; [reflexivity|].
  rewrite !xorb_false_r, !xorb_true_r, !negb_true_iff, !Nat.ltb_lt, !Nat.ltb_ge. tauto.
Qed.
Print Assumptions C56_size_strict.
Example C56_example : size_test 100 true 100 false = false /\ size_test 100 false 100 false = false /\ size_test 101 true 100 false = true.
Proof. auto. Qed.
