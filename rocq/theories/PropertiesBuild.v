(** Properties C73 to C78: the bytes of an edited message. *)
From Coq Require Import Permutation.
From Verif Require Import Base Lib Var Value Glob Comparator PropertiesCompare Message MessageSpec PropertiesMessage
  EditHeader EditHeaderSpec EditHeaderProofs PropertiesEdit Mime Build BuildSpec BuildProofs BuildProofs2 BuildProofs3
  BuildProofs4 BuildProofs5 BuildProofs6.

(** A message of three parts: a multipart with a text and an HTML part. *)
Definition line (s : string) : list N := lit s ++ [13; 10]%N.
Definition sample_raw : list N :=
  line "Subject: hi" ++ line "From: a@x" ++ line "To: b@x" ++ line "Content-Type: multipart/mixed; boundary=q" ++ line "" ++
  line "--q" ++ line "Content-Type: text/plain" ++ line "X-A: 1" ++ line "" ++ line "one" ++
  line "--q" ++ line "Content-Type: text/html" ++ line "" ++ line "<b>two</b>" ++ line "--q--".
Definition hdr (n v : string) (a b c : nat) : fheader :=
  {| fh_view := {| h_name := lit n; h_val := HText (lit v); h_raw := true; h_plain := lit v; h_bytes := c - a |};
     fh_other := false; fh_field := a; fh_start := b; fh_end := c |}.
Definition ctp (s : string) : option ctype := Some {| ct_type := lit "text"; ct_subtype := Some (lit s); ct_attrs := None |}.
Definition sample_parts : list fpart :=
  [FPart [hdr "Subject" "hi" 0 8 13; hdr "From" "a@x" 13 18 24; hdr "To" "b@x" 24 27 33;
          hdr "Content-Type" "multipart/mixed; boundary=q" 33 46 76]
     None (FMulti [1; 2]) false 0 78 175;
   FPart [hdr "Content-Type" "text/plain" 83 96 109; hdr "X-A" "1" 109 113 117] (ctp "plain") (FText (lit "one")) false 83 119 122;
   FPart [hdr "Content-Type" "text/html" 129 142 154] (ctp "html") (FHtml (lit "<b>two</b>")) false 129 156 166].
Definition sample_state : fstate :=
  {| fs_raw := sample_raw; fs_parts := sample_parts; fs_changed := false; fs_size := 175 |}.
Definition sample_tree : tree :=
  Node 0 [line "Subject: hi"; line "From: a@x"; line "To: b@x"; line "Content-Type: multipart/mixed; boundary=q"] true
    (Multi [(line "--q", Node 1 [line "Content-Type: text/plain"; line "X-A: 1"] true (Leaf (lit "one")));
            (line "" ++ line "--q", Node 2 [line "Content-Type: text/html"] true (Leaf (lit "<b>two</b>")))]
           (line "" ++ line "--q--")).
Ltac tile := repeat (eapply t_cons; [vm_compute; reflexivity|vm_compute; lia|vm_compute; reflexivity|reflexivity|reflexivity|]); apply t_nil.
Ltac lay :=
  first [ eapply l_leaf; [reflexivity|discriminate|tile|vm_compute; reflexivity|vm_compute; reflexivity]
        | eapply l_multi; [reflexivity|tile|vm_compute; reflexivity|lay_all|vm_compute; reflexivity] ]
with lay_all :=
  first [ eapply la_cons; [reflexivity|vm_compute; reflexivity|lay|lay_all] | apply la_nil ].
Lemma sample_parsed : parsed (fs_raw sample_state) (fs_parts sample_state) sample_tree [].
Proof. eexists. split; [reflexivity|]. split; [reflexivity|]. split; [lay|vm_compute; reflexivity]. Qed.
Lemma sample_history rx M : history ascii_lib rx M sample_state.
Proof.
  eapply h_start; [exact sample_parsed|]. intros i Hi. cbn in Hi. cbn. lia.
Qed.
Definition env0 : mimeenv :=
  {| me_psize := fun _ => 0; me_max_header := 100; me_protected := []; me_from := lit "me@x"; me_date := lit "today";
     me_msgid := lit "<1@x>"; me_boundary := lit "bb"; me_subject := fun _ => Some (lit "hi");
     me_h2t := fun t => lit "T"; me_t2h := fun t => lit "H" |}.

(** C73: a message whose offsets tile its bytes (the contract of mail_parser) is
    built as it came ... *)
Theorem C73_unedited : forall st t tail,
  parsed (fs_raw st) (fs_parts st) t tail ->
  fs_raw st = render t ++ tail /\ builds st (fs_raw st).
Proof. intros st t tail H. split; [exact (parsed_raw _ _ _ _ H)|exact (parsed_builds _ _ _ H)]. Qed.
Print Assumptions C73_unedited.

(** ... and after any number of addheader and deleteheader actions the message
    that is built differs from the original in its header fields only.  Of the
    original fields those that are left stand there byte for byte and in their
    order.  The fields are those the tests see ([fview]; what the actions do to
    these is C14, C15). *)
Theorem C73_header_edits : forall L rx M protected max es st st' t tail,
  parsed (fs_raw st) (fs_parts st) t tail ->
  run_fedits L rx M protected max es st = Some st' ->
  builds st' (render (with_fields (fun id => map (written (fs_raw st)) (headers_at st' id)) t) ++ tail) /\
  run_edits L rx M protected max es (fview st) = Some (fview st') /\
  (forall id p, nth_error (fs_parts st) id = Some p -> sublist (filter original (headers_at st' id)) (filter original (fp_headers p))).
Proof. exact edits_exact. Qed.
Print Assumptions C73_header_edits.

(** Adding a header to part 1 and deleting From of the root. *)
Definition sample_edits : list edit :=
  [EAdd (lit "X-New") (lit "v") true 1; EDelete (lit "From") None false COctet MIs [VStr (lit "a@x")] 0].
Example C73_example :
  exists st', run_fedits ascii_lib no_rx no_mp [] 100 sample_edits sample_state = Some st' /\
    builds st' (line "Subject: hi" ++ line "To: b@x" ++ line "Content-Type: multipart/mixed; boundary=q" ++ line "" ++
                line "--q" ++ line "Content-Type: text/plain" ++ line "X-A: 1" ++ line "X-New: v" ++ line "" ++ line "one" ++
                line "--q" ++ line "Content-Type: text/html" ++ line "" ++ line "<b>two</b>" ++ line "--q--").
Proof.
  destruct (run_fedits ascii_lib no_rx no_mp [] 100 sample_edits sample_state) as [st'|] eqn:E; [|vm_compute in E; discriminate].
  exists st'. split; [reflexivity|]. vm_compute in E. injection E as <-. eapply (builds_by 20). vm_compute. reflexivity.
Qed.

(** Reading is not quite the inverse of building: a header closed by a bare LF
    comes back with CR LF. *)
Definition bare : fstate :=
  {| fs_raw := lit "A: b" ++ [10; 10]%N ++ lit "hi";
     fs_parts := [FPart [hdr "A" "b" 0 2 5] None (FText (lit "hi")) false 0 6 8]; fs_changed := false; fs_size := 8 |}.
Theorem C73_bare_lf_refuted :
  exists b, builds bare b /\ b <> fs_raw bare /\ b = lit "A: b" ++ [10; 13; 10]%N ++ lit "hi".
Proof. exists (lit "A: b" ++ [10; 13; 10]%N ++ lit "hi"). split; [apply (builds_by 5); vm_compute; reflexivity|]. split; [vm_compute; discriminate|reflexivity]. Qed.
Print Assumptions C73_bare_lf_refuted.

(** C74: after any header edits the size the "size" test works with is the number
    of bytes of the message that is built.  (First lines: the facts about char
    and mail_parser; [ids]: every part occurs once in the message.) *)
Theorem C74_size_is_built_size_partial : forall L rx M protected max,
  (forall c, chr_lower L c <> []) ->
  (forall c, chr_is_alnum L c = true -> ~ ends_name c) ->
  (forall n h, hn_parse M n = Some h -> teqb_ic h n = true) ->
  forall es st t tail,
    parsed (fs_raw st) (fs_parts st) t tail ->
    Permutation (ids t) (seq 0 (length (fs_parts st))) ->
    well_formed (map view (fs_parts st)) ->
    fs_size st = length (fs_raw st) ->
    (forall e, In e es -> edit_part e < length (fs_parts st)) ->
    exists st' bytes, run_fedits L rx M protected max es st = Some st' /\ builds st' bytes /\ fs_size st' = length bytes.
Proof.
  intros L rx M prot max H1 H2 H3 es st t tail HP Hp Hw Hs He.
  destruct (edits_size L rx M prot max H1 H2 H3 es st t tail HP Hp Hw Hs He) as (st' & E & B & S & _).
  exists st'. eexists. split; [exact E|]. split; [exact B|exact S].
Qed.
Print Assumptions C74_size_is_built_size_partial.
Lemma sample_view_wf : well_formed (map view (fs_parts sample_state)).
Proof.
  assert (C : forall a b, child (map view sample_parts) a b -> a = 0 /\ (b = 1 \/ b = 2)).
  { intros a b (p & X & Y). destruct a as [|[|[|a]]]; cbn in X; try (injection X as <-; cbn in Y; intuition lia).
    destruct a; discriminate. }
  constructor.
  - intros a b H. apply C in H. cbn. lia.
  - intros a1 a2 b H1 H2. apply C in H1, H2. lia.
  - intros a p X. destruct a as [|[|[|a]]]; cbn in X; try (injection X as <-; cbn; repeat constructor; cbn; intuition lia).
    destruct a; discriminate.
Qed.
Example C74_example :
  Permutation (ids sample_tree) (seq 0 (length (fs_parts sample_state))) /\
  well_formed (map view (fs_parts sample_state)) /\
  fs_size sample_state = length (fs_raw sample_state) /\
  (forall e, In e sample_edits -> edit_part e < length (fs_parts sample_state)) /\
  option_map fs_size (run_fedits ascii_lib no_rx no_mp [] 100 sample_edits sample_state) = Some 174.
Proof.
  split; [apply Permutation_refl|]. split; [|split; [vm_compute; reflexivity|split; [|vm_compute; reflexivity]]].
  - exact sample_view_wf.
  - intros e [<-|[<-|[]]]; cbn; lia.
Qed.

(** After [enclose] the size is four bytes short of the message, always. *)
Theorem C74_enclose_refuted : forall L rx M E hs s b st B,
  history L rx M st -> builds st B -> fs_size st = length B ->
  ~ In 34%N (me_boundary E) -> me_boundary E <> [] ->
  (forall h g, In h hs -> In g (enclose_given L M E h) -> teqb_ic (fst (snd g)) (lit "Content-Type") = false) ->
  exists st' B', fenclose L M E hs s b st = Some st' /\ builds st' B' /\ fs_size st' + 4 = length B'.
Proof. exact enclose_short. Qed.
Print Assumptions C74_enclose_refuted.
(** After [replace] of a part and after [convert] it is two bytes short. *)
Theorem C74_replace_refuted :
  exists st' B', freplace env0 None None (lit "new") false 1 sample_state = Some st' /\ builds st' B' /\
    fs_size st' + 2 = length B'.
Proof.
  destruct (freplace env0 None None (lit "new") false 1 sample_state) as [st'|] eqn:E; [|vm_compute in E; discriminate].
  vm_compute in E. injection E as <-. eexists. eexists. split; [reflexivity|]. split; [eapply (builds_by 20); vm_compute; reflexivity|].
  vm_compute. reflexivity.
Qed.
Print Assumptions C74_replace_refuted.
Theorem C74_convert_refuted :
  exists st' B', fconvert env0 (lit "text/html") (lit "text/plain") sample_state = Some (true, st') /\ builds st' B' /\
    fs_size st' + 2 = length B'.
Proof.
  destruct (fconvert env0 (lit "text/html") (lit "text/plain") sample_state) as [[d st']|] eqn:E; [|vm_compute in E; discriminate].
  vm_compute in E. injection E as <- <-. eexists. eexists. split; [reflexivity|]. split; [eapply (builds_by 20); vm_compute; reflexivity|].
  vm_compute. reflexivity.
Qed.
Print Assumptions C74_convert_refuted.

(** C75: building the message ends and does not panic, whatever edits came before
    ([history]: any number of addheader, deleteheader, replace, enclose, convert;
    replace applied to the whole message or to a part without subparts). *)
Theorem C75_always_builds_partial : forall L rx M st,
  history L rx M st -> exists bytes, builds st bytes.
Proof. exact history_builds. Qed.
Print Assumptions C75_always_builds_partial.
Example C75_example : forall rx M, exists st1 st2 st3,
  freplace env0 None None (lit "new") false 1 sample_state = Some st1 /\
  fenclose ascii_lib M env0 [] None (lit "look") st1 = Some st2 /\
  freplace env0 (Some (lit "s")) None (lit "gone") true 0 st2 = Some st3 /\
  history ascii_lib rx M st3.
Proof.
  intros rx M.
  destruct (freplace env0 None None (lit "new") false 1 sample_state) as [st1|] eqn:E1; [|vm_compute in E1; discriminate].
  destruct (enclose_parts ascii_lib M env0 [] None (lit "look") st1) as (st2 & E2 & _ & _ & Hp & _).
  destruct (freplace env0 (Some (lit "s")) None (lit "gone") true 0 st2) as [st3|] eqn:E3.
  - exists st1, st2, st3. split; [reflexivity|]. split; [exact E2|]. split; [exact E3|].
    eapply h_replace; [|left; reflexivity|exact E3]. eapply h_enclose; [|exact E2].
    eapply h_replace; [apply sample_history| |exact E1]. right. intros p Hq. injection Hq as <-. discriminate.
  - exfalso. vm_compute in E1. injection E1 as <-. vm_compute in E2. injection E2 as <-. vm_compute in E3. discriminate.
Qed.

(** It does panic after [replace] of a multipart inside a multipart: the parts are
    renumbered, the lists of subparts are not. *)
Definition nested_raw : list N :=
  line "Content-Type: multipart/mixed; boundary=a" ++ line "" ++ line "--a" ++
  line "Content-Type: multipart/mixed; boundary=b" ++ line "" ++ line "--b" ++
  line "Content-Type: multipart/mixed; boundary=c" ++ line "" ++ line "--c" ++
  line "" ++ line "one" ++ line "--c--" ++ line "--b" ++ line "" ++ line "two" ++ line "--b--" ++
  line "--a" ++ line "" ++ line "three" ++ line "--a--".
Definition mhdr (b : string) (a c : nat) : list fheader :=
  [{| fh_view := {| h_name := lit "Content-Type"; h_val := HText (lit "multipart/mixed; boundary=" ++ lit b); h_raw := true;
                    h_plain := lit "multipart/mixed; boundary=" ++ lit b; h_bytes := c - a |};
      fh_other := false; fh_field := a; fh_start := a + 13; fh_end := c |}].
Definition nested_state : fstate :=
  {| fs_raw := nested_raw;
     fs_parts := [FPart (mhdr "a" 0 43) None (FMulti [1; 5]) false 0 45 204;
                  FPart (mhdr "b" 50 93) None (FMulti [2; 4]) false 50 95 181;
                  FPart (mhdr "c" 100 143) None (FMulti [3]) false 100 145 162;
                  FPart [] None (FText (lit "one")) false 150 152 155;
                  FPart [] None (FText (lit "two")) false 169 171 174;
                  FPart [] None (FText (lit "three")) false 188 190 195];
     fs_changed := false; fs_size := 204 |}.
Lemma nested_parsed : exists t, parsed (fs_raw nested_state) (fs_parts nested_state) t [] /\ ids t = [0; 1; 2; 3; 4; 5].
Proof.
  eexists. split; [eexists; split; [reflexivity|]; split; [reflexivity|]; split; [|vm_compute; reflexivity]|].
  - lay.
  - reflexivity.
Qed.
Theorem C75_replace_multipart_refuted :
  (forall L rx M, history L rx M nested_state) /\
  exists st', freplace env0 None None (lit "new") false 2 nested_state = Some st' /\
    forall n, 20 <= n -> build_message n (fs_raw st') (fs_parts st') = BuildPanic.
Proof.
  split.
  - intros L rx M. destruct nested_parsed as (t & HP & Hi). eapply h_start; [exact HP|]. rewrite Hi. intros i H. cbn in H. cbn. lia.
  - destruct (freplace env0 None None (lit "new") false 2 nested_state) as [st'|] eqn:E; [|vm_compute in E; discriminate].
    vm_compute in E. injection E as <-. eexists. split; [reflexivity|]. apply build_enough; [vm_compute; reflexivity|discriminate].
Qed.
Print Assumptions C75_replace_multipart_refuted.

(** C76: [replace] of a part without subparts exchanges that part and nothing
    else: its header fields are gone (:mime) or are one Content-Type field, its
    body is the given text ... *)
Theorem C76_replace_part_partial : forall E s f b mime id st st' p t tail,
  parsed (fs_raw st) (fs_parts st) t tail ->
  id <> 0 -> nth_error (fs_parts st) id = Some p -> leaf (fp_body p) ->
  freplace E s f b mime id st = Some st' ->
  builds st' (render (exchange (swapped id (Node id (if mime then [] else [plain_ct]) (negb mime) (Leaf (utf8 b)))) t) ++ tail).
Proof. exact replace_leaf_builds. Qed.
Print Assumptions C76_replace_part_partial.

(** ... and of the whole message, after any edits, gives the kept header fields,
    the new ones and the given text ([root_fields]). *)
Theorem C76_replace_message : forall L rx M E s f b mime st st',
  history L rx M st -> freplace E s f b mime 0 st = Some st' ->
  exists p, nth_error (fs_parts st) 0 = Some p /\
  builds st' (concat (root_fields E (fs_raw st) s f mime (fp_headers p)) ++ (if mime then [] else crlf) ++ utf8 b ++
              rest_of (fs_raw st) (fp_oe p)).
Proof. exact replace_root_builds. Qed.
Print Assumptions C76_replace_message.
Example C76_example :
  (exists st', freplace env0 None None (lit "new") false 1 sample_state = Some st' /\
    builds st' (line "Subject: hi" ++ line "From: a@x" ++ line "To: b@x" ++ line "Content-Type: multipart/mixed; boundary=q" ++ line "" ++
      line "--q" ++ line "Content-Type: text/plain; charset=utf-8" ++ line "" ++ line "new" ++
      line "--q" ++ line "Content-Type: text/html" ++ line "" ++ line "<b>two</b>" ++ line "--q--")) /\
  (exists st', freplace env0 (Some (lit "s")) (Some (lit "f@x")) (lit "new") false 0 sample_state = Some st' /\
    builds st' (line "Original-Subject: hi" ++ line "Original-From: a@x" ++ line "To: b@x" ++ line "From: f@x" ++ line "Subject: s" ++
      line "Date: today" ++ line "Message-ID: <1@x>" ++ line "Content-Type: text/plain; charset=utf-8" ++ line "" ++ lit "new")).
Proof.
  split.
  - destruct (freplace env0 None None (lit "new") false 1 sample_state) as [st'|] eqn:E; [|vm_compute in E; discriminate].
    vm_compute in E. injection E as <-. eexists. split; [reflexivity|]. apply (builds_by 20). vm_compute. reflexivity.
  - destruct (freplace env0 (Some (lit "s")) (Some (lit "f@x")) (lit "new") false 0 sample_state) as [st'|] eqn:E; [|vm_compute in E; discriminate].
    vm_compute in E. injection E as <-. eexists. split; [reflexivity|]. apply (builds_by 20). vm_compute. reflexivity.
Qed.
(** Without :from the new message has two From fields, the original one and the
    user's. *)
Theorem C76_one_from_refuted :
  exists st', freplace env0 None None (lit "new") false 0 sample_state = Some st' /\
    builds st' (line "Subject: hi" ++ line "From: a@x" ++ line "To: b@x" ++ line "From: me@x" ++
      line "Date: today" ++ line "Message-ID: <1@x>" ++ line "Content-Type: text/plain; charset=utf-8" ++ line "" ++ lit "new").
Proof.
  destruct (freplace env0 None None (lit "new") false 0 sample_state) as [st'|] eqn:E; [|vm_compute in E; discriminate].
  vm_compute in E. injection E as <-. eexists. split; [reflexivity|]. apply (builds_by 20). vm_compute. reflexivity.
Qed.
Print Assumptions C76_one_from_refuted.

(** C77: [enclose], after any edits, gives a message of two parts, the given text
    and, byte for byte, the message as it would have been built before; its
    parts are separated by the boundary its Content-Type names.  (For a boundary
    without a quote, and unless the script itself gives a Content-Type.) *)
Theorem C77_enclose_partial : forall L rx M E hs s b st B,
  history L rx M st -> builds st B ->
  ~ In 34%N (me_boundary E) ->
  (forall h g, In h hs -> In g (enclose_given L M E h) -> teqb_ic (fst (snd g)) (lit "Content-Type") = false) ->
  exists st', fenclose L M E hs s b st = Some st' /\
    builds st' (concat (map (fun x => field (fst x) (snd x)) (enclosing_fields L M E st hs s)) ++
                delimiter (me_boundary E) ++ plain_ct ++ crlf ++ utf8 b ++
                delimiter (me_boundary E) ++ field (lit "Content-Type") (lit "message/rfc822") ++ crlf ++ B ++
                closing (me_boundary E)).
Proof. exact enclose_builds. Qed.
Print Assumptions C77_enclose_partial.
Example C77_example :
  ~ In 34%N (me_boundary env0) /\
  (forall h g, In h [lit "X-B: c"] -> In g (enclose_given ascii_lib no_mp env0 h) -> teqb_ic (fst (snd g)) (lit "Content-Type") = false) /\
  exists st', fenclose ascii_lib no_mp env0 [lit "X-B: c"] None (lit "look") sample_state = Some st' /\
    builds st' (line "Content-Type: multipart/mixed; boundary=""bb""" ++ line "Subject: hi" ++ line "X-B: c" ++ line "From: me@x" ++
      line "Date: today" ++ line "Message-ID: <1@x>" ++
      line "" ++ line "--bb" ++ line "Content-Type: text/plain; charset=utf-8" ++ line "" ++ lit "look" ++
      line "" ++ line "--bb" ++ line "Content-Type: message/rfc822" ++ line "" ++ sample_raw ++
      line "" ++ line "--bb--").
Proof.
  split; [vm_compute; intros [H|[H|[]]]; discriminate|]. split.
  - intros h g [<-|[]] Hg. vm_compute in Hg. destruct Hg as [<-|[]]. reflexivity.
  - destruct (fenclose ascii_lib no_mp env0 [lit "X-B: c"] None (lit "look") sample_state) as [st'|] eqn:E; [|vm_compute in E; discriminate].
    vm_compute in E. injection E as <-. eexists. split; [reflexivity|]. apply (builds_by 20). vm_compute. reflexivity.
Qed.
(** If the script gives a Content-Type the parts are not separated by the boundary
    that the message names. *)
Theorem C77_given_content_type_refuted :
  exists st' B, fenclose ascii_lib no_mp env0 [lit "Content-Type: text/plain"] None (lit "look") sample_state = Some st' /\
    builds st' B /\ (exists a c, B = a ++ lit "boundary=""bb""" ++ c) /\ (forall a c, B <> a ++ lit "--bb" ++ c).
Proof.
  destruct (fenclose ascii_lib no_mp env0 [lit "Content-Type: text/plain"] None (lit "look") sample_state) as [st'|] eqn:E; [|vm_compute in E; discriminate].
  vm_compute in E. injection E as <-. eexists. eexists. split; [reflexivity|]. split; [eapply (builds_by 20); vm_compute; reflexivity|]. split.
  - exists (lit "Content-Type: multipart/mixed; "). eexists. reflexivity.
  - intros a c H. apply (split_at_none (lit "--bb") a c). rewrite <- H. vm_compute. reflexivity.
Qed.
Print Assumptions C77_given_content_type_refuted.

(** C78: [convert] exchanges the parts of the type it converts, each for a part
    with the converted text, and leaves every other byte. *)
Theorem C78_convert : forall E from to st d st' cv t tail,
  parsed (fs_raw st) (fs_parts st) t tail ->
  conversion_of from to = Some cv -> fconvert E from to st = Some (d, st') ->
  builds st' (render (exchange (conversion_result E cv (fs_parts st)) t) ++ tail).
Proof. exact convert_builds. Qed.
Print Assumptions C78_convert.
Example C78_example :
  conversion_of (lit "text/html") (lit "text/plain") = Some CvHtmlToText /\
  exists st', fconvert env0 (lit "text/html") (lit "text/plain") sample_state = Some (true, st') /\
    builds st' (line "Subject: hi" ++ line "From: a@x" ++ line "To: b@x" ++ line "Content-Type: multipart/mixed; boundary=q" ++ line "" ++
      line "--q" ++ line "Content-Type: text/plain" ++ line "X-A: 1" ++ line "" ++ line "one" ++
      line "--q" ++ line "Content-Type: text/plain; charset=utf8" ++ line "" ++ line "T" ++ line "--q--").
Proof.
  split; [reflexivity|].
  destruct (fconvert env0 (lit "text/html") (lit "text/plain") sample_state) as [[d st']|] eqn:E; [|vm_compute in E; discriminate].
  vm_compute in E. injection E as <- <-. eexists. split; [reflexivity|]. apply (builds_by 20). vm_compute. reflexivity.
Qed.
(** A message of one part loses its header fields, Subject and From among them. *)
Definition single : fstate :=
  {| fs_raw := line "Subject: hi" ++ line "From: a@x" ++ line "" ++ lit "one";
     fs_parts := [FPart [hdr "Subject" "hi" 0 8 13; hdr "From" "a@x" 13 18 24] (ctp "plain") (FText (lit "one")) false 0 26 29];
     fs_changed := false; fs_size := 29 |}.
Theorem C78_other_fields_refuted :
  (exists t, parsed (fs_raw single) (fs_parts single) t []) /\
  exists st', fconvert env0 (lit "text/plain") (lit "text/html") single = Some (true, st') /\
    builds st' (line "Content-Type: text/html; charset=utf8" ++ line "" ++ lit "H").
Proof.
  split.
  - eexists. eexists. split; [reflexivity|]. split; [reflexivity|]. split; [|vm_compute; reflexivity].
    lay.
  - destruct (fconvert env0 (lit "text/plain") (lit "text/html") single) as [[d st']|] eqn:E; [|vm_compute in E; discriminate].
    vm_compute in E. injection E as <- <-. eexists. split; [reflexivity|]. apply (builds_by 20). vm_compute. reflexivity.
Qed.
Print Assumptions C78_other_fields_refuted.
