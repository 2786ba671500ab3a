(** Properties C14, C15, C52: header editing. *)
From Verif Require Import Base Lib Var Value Glob GlobSpec Comparator ComparatorSpec
  PropertiesCompare Message MessageSpec MessageProofs2 PropertiesMessage EditHeader EditHeaderSpec EditHeaderProofs.

(** C14: addheader either changes nothing or adds one header, at the top or at
    the bottom of the current part, whose name cannot end the name (no CR, LF,
    colon, blank) and is not protected, and whose value has no CR or LF and is
    the given value cut to max_header_size bytes.  [hn_parse] (mail_parser's
    HeaderName::parse) is assumed to return the given name up to ASCII case, and
    char::is_alphanumeric to reject those five characters. *)
Theorem C14_addheader_cannot_inject :
  forall L M protected max name value last part_id st p,
    (forall c, chr_is_alnum L c = true -> ~ ends_name c) ->
    (forall n h, hn_parse M n = Some h -> teqb_ic h n = true) ->
    nth_error (ms_parts st) part_id = Some p ->
    exists st', add_header L M protected max name value last part_id st = Some st' /\
      (st' = st \/
       exists h,
         nth_error (ms_parts st') part_id =
           Some (set_headers (if last then p_headers p ++ [h] else h :: p_headers p) p) /\
         (forall j, j <> part_id -> nth_error (ms_parts st') j = nth_error (ms_parts st) j) /\
         length (ms_parts st') = length (ms_parts st) /\
         ms_changed st' = true /\
         ms_size st' - headers_size (ms_parts st') = ms_size st - headers_size (ms_parts st) /\
         ms_size st' = ms_size st + header_size h /\
         h_raw h = false /\ h_name h <> [] /\
         (forall q, In q protected -> hn_eqb (h_name h) q = false) /\
         Forall (fun c => ~ ends_name c) (h_name h) /\
         teqb_ic (h_name h) (filter (fun c => chr_is_alnum L c || N.eqb c 45) name) = true /\
         exists v, h_val h = HText v /\ Forall (fun c => ~ breaks_header c) v /\ cut_to max (no_crlf value) v).
Proof. exact add_exact. Qed.
Print Assumptions C14_addheader_cannot_inject.

(** ... and it does add the header unless the cleaned name is empty, refused by
    the parser or protected. *)
Theorem C14_addheader_adds :
  forall L M protected max name value last part_id st p hn,
    nth_error (ms_parts st) part_id = Some p ->
    hn_parse M (filter (fun c => chr_is_alnum L c || N.eqb c 45) name) = Some hn ->
    filter (fun c => chr_is_alnum L c || N.eqb c 45) name <> [] ->
    (forall q, In q protected -> hn_eqb hn q = false) ->
    exists st', add_header L M protected max name value last part_id st = Some st' /\
      nth_error (ms_parts st') part_id =
        Some (set_headers (if last then p_headers p ++ [new_header hn (remove_crlf max value)]
                           else new_header hn (remove_crlf max value) :: p_headers p) p).
Proof. exact add_adds. Qed.
Print Assumptions C14_addheader_adds.

Definition st0 : mstate := {| ms_parts := sample; ms_changed := false; ms_size := 500 |}.
Definition crlf : text := [13; 10]%N.
Example C14_example :
  (forall c, chr_is_alnum ascii_lib c = true -> ~ ends_name c) /\
  (forall n h, hn_parse no_mp n = Some h -> teqb_ic h n = true) /\
  option_map (fun st => (ms_changed st, map (fun h => (h_name h, h_val h)) (p_headers (nth 3 (ms_parts st) (Part [] None (BMulti []))))))
    (add_header ascii_lib no_mp [lit "Original-Subject"] 6 (lit "X-E: vil") (lit "ab" ++ crlf ++ lit "Bcc: x") true 3 st0)
  = Some (true, [(lit "X-B", HText (lit "2")); (lit "X-Evil", HText (lit "abBcc:"))]) /\
  add_header ascii_lib no_mp [lit "Original-Subject"] 6 (lit "original: -SUBJECT") (lit "x") true 3 st0 = Some st0.
Proof.
  split; [|split; [|split; vm_compute; reflexivity]].
  - intros c H E. destruct E as [->|[->|[->|[->| ->]]]]; discriminate H.
  - intros n h H. injection H as ->. apply teqb_ic_refl.
Qed.

(** C15: deleteheader removes exactly the selected headers whose value satisfies
    the patterns, keeps the others in order, and reduces message_size by their
    size. *)
Theorem C15_deleteheader_exact :
  forall L rx M, (forall c, chr_lower L c <> []) ->
  forall protected name hn index anychild c m patterns part_id st,
    well_formed (ms_parts st) -> part_id < length (ms_parts st) ->
    hn_parse M name = Some hn -> (forall q, In q protected -> hn_eqb hn q = false) ->
    headers_size (ms_parts st) <= ms_size st ->
    let gone j p pos := exists h, looked_at (ms_parts st) part_id anychild j p /\
                         selected index hn (p_headers p) pos h /\ satisfies L rx M c m patterns h in
    exists st', delete_header L rx M protected name index anychild c m patterns part_id st = Some st' /\
      length (ms_parts st') = length (ms_parts st) /\
      (forall j p, nth_error (ms_parts st) j = Some p ->
         exists p', nth_error (ms_parts st') j = Some p' /\ same_but_headers p p' /\
           without (gone j p) 0 (p_headers p) (p_headers p')) /\
      ms_size st - headers_size (ms_parts st) = ms_size st' - headers_size (ms_parts st') /\
      headers_size (ms_parts st') <= ms_size st' /\
      (ms_changed st' = true <-> ms_changed st = true \/ exists j p pos, gone j p pos).
Proof. exact delete_exact. Qed.
Print Assumptions C15_deleteheader_exact.

(** A name that cannot be parsed, or a protected one, deletes nothing. *)
Theorem C15_refused_names_delete_nothing :
  forall L rx M protected name index anychild c m patterns part_id st,
    (forall hn, hn_parse M name = Some hn -> exists q, In q protected /\ hn_eqb hn q = true) ->
    delete_header L rx M protected name index anychild c m patterns part_id st = Some st.
Proof. exact delete_refused. Qed.
Print Assumptions C15_refused_names_delete_nothing.

Definition names_of (st : mstate) : list (list text) := map (fun p => map h_name (p_headers p)) (ms_parts st).
Example C15_example :
  well_formed (ms_parts st0) /\ headers_size (ms_parts st0) <= ms_size st0 /\
  option_map (fun st => (names_of st, ms_size st))
    (delete_header ascii_lib no_rx no_mp [lit "Original-Subject"] (lit "Received") None false CCasemap MIs
       [VStr (lit "c"); VStr (lit "A")] 0 st0)
  = Some ([[lit "Subject"; lit "received"]; [lit "X-A"]; []; [lit "X-B"]; [lit "X-C"]], 474) /\
  option_map (fun st => (names_of st, ms_size st))
    (delete_header ascii_lib no_rx no_mp [lit "Original-Subject"] (lit "Received") (Some (-2)%Z) true CCasemap MIs [] 0 st0)
  = Some ([[lit "Received"; lit "Subject"; lit "Received"]; [lit "X-A"]; []; [lit "X-B"]; [lit "X-C"]], 487).
Proof.
  split; [exact sample_wf|]. split; [vm_compute; lia|]. split; vm_compute; reflexivity.
Qed.

(** C52: whatever header edits a script makes, none of them fails, the message
    size used by the size test is the size of the rest of the message plus that
    of the current headers, the tree is unchanged and protected headers are
    untouched. *)
Theorem C52_edits_keep_size_and_protected :
  forall L rx M protected max,
    (forall c, chr_lower L c <> []) ->
    (forall c, chr_is_alnum L c = true -> ~ ends_name c) ->
    (forall n h, hn_parse M n = Some h -> teqb_ic h n = true) ->
  forall edits st,
    well_formed (ms_parts st) -> headers_size (ms_parts st) <= ms_size st ->
    (forall e, In e edits -> edit_part e < length (ms_parts st)) ->
    exists st', run_edits L rx M protected max edits st = Some st' /\
      well_formed (ms_parts st') /\ headers_size (ms_parts st') <= ms_size st' /\
      length (ms_parts st') = length (ms_parts st) /\
      ms_size st' - headers_size (ms_parts st') = ms_size st - headers_size (ms_parts st) /\
      (forall q, In q protected ->
         map (fun p => named q (p_headers p)) (ms_parts st') = map (fun p => named q (p_headers p)) (ms_parts st)).
Proof. exact run_edits_ok. Qed.
Print Assumptions C52_edits_keep_size_and_protected.

Example C52_example :
  option_map (fun st => (names_of st, ms_size st))
    (run_edits ascii_lib no_rx no_mp [lit "Subject"] 10
       [EAdd (lit "X-N") (lit "v") false 0; EDelete (lit "X-N") (Some 1%Z) false CCasemap MIs [] 0;
        EDelete (lit "Subject") None false CCasemap MIs [] 0; EAdd (lit "subject") (lit "v") false 0] st0)
  = Some (names_of st0, 500).
Proof. vm_compute. reflexivity. Qed.
