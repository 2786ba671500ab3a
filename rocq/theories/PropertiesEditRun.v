(** Properties C95, and C92 continued: the edits of the message in a running script, and the tests
    convert and vacation. *)
From Coq Require Import Lia.
From Verif Require Import Base Lib Var Value SetVar Flags Glob Comparator ComparatorSpec Message MessageSpec EditHeader EditHeaderSpec EditHeaderProofs Address Expr Spam AddrTest
  Mime Build BuildSpec BuildView BuildProofs6 Event Notify NotifySpec Vacation VacationSpec Sieve Run TestSpec TestProofs ActionSpec ActionProofs
  EditRunSpec EditRunProofs PropertiesCompare PropertiesNotify PropertiesAddrTest PropertiesMessage PropertiesBuild PropertiesVacation PropertiesRun PropertiesTest.
Import ListNotations.
Local Open Scope string_scope.
Local Open Scope list_scope.

(** C95: replace of the whole message: the message that would be built from then on is made of the
    kept header fields, the new ones, and the text of the argument. *)
Theorem C95_replace_message :
  forall E s subject from body mime st,
    at_instr E s (IxReplace subject from body mime) -> r_part s = 0 -> shows E s st -> history (E_L E) (E_rx E) (E_M E) st ->
    step E s <> SPanic ->
    exists st' p, step E s = SCont (w_msg (fview st') (moved_on s)) /\ history (E_L E) (E_rx E) (E_M E) st' /\
      nth_error (fs_parts st) 0 = Some p /\
      builds st' (concat (root_fields (edit_env E s) (fs_raw st) (option_map (tx E s) subject) (option_map (tx E s) from) mime (fp_headers p)) ++
                  (if mime then [] else Build.crlf) ++ utf8 (tx E s body) ++ rest_of (fs_raw st) (fp_oe p)).
Proof.
  intros E s subject from body mime st AT RP SH HI NP. destruct (replace_run E s st _ _ _ _ AT SH NP) as (st' & F & ST). rewrite RP in F.
  destruct (C76_replace_message _ _ _ _ _ _ _ _ _ _ HI F) as (p & N & B). exists st', p. split; [exact ST|]. split; [|split; [exact N|exact B]].
  eapply h_replace; [exact HI|left; reflexivity|exact F].
Qed.
Print Assumptions C95_replace_message.

(** ... of the current part, one without parts of its own: the text of the argument takes its place,
    and no other byte changes. *)
Theorem C95_replace_part_partial :
  forall E s subject from body mime st t tail p,
    at_instr E s (IxReplace subject from body mime) -> r_part s <> 0 -> shows E s st -> parsed (fs_raw st) (fs_parts st) t tail ->
    nth_error (fs_parts st) (r_part s) = Some p -> leaf (fp_body p) -> step E s <> SPanic ->
    exists st', step E s = SCont (w_msg (fview st') (moved_on s)) /\
      builds st' (render (exchange (swapped (r_part s)
        (Node (r_part s) (if mime then [] else [plain_ct]) (negb mime) (Leaf (utf8 (tx E s body))))) t) ++ tail).
Proof.
  intros E s subject from body mime st t tail p AT RP SH PA N LE NP. destruct (replace_run E s st _ _ _ _ AT SH NP) as (st' & F & ST).
  exists st'. split; [exact ST|]. eapply C76_replace_part_partial; eassumption.
Qed.
Print Assumptions C95_replace_part_partial.

(** enclose: the message becomes the second of two parts, behind the text of the argument, and the
    current part is the new root. *)
Theorem C95_enclose_partial :
  forall E s headers subject body st B,
    at_instr E s (IxEnclose headers subject body) -> fview st = r_msg s -> history (E_L E) (E_rx E) (E_M E) st -> builds st B ->
    ~ In 34%N (E_boundary E (r_instrs s + 1)) ->
    (forall h g, In h headers -> In g (enclose_given (E_L E) (E_M E) (edit_env E s) (tx E s h)) -> teqb_ic (fst (snd g)) (lit "Content-Type") = false) ->
    let boundary := E_boundary E (r_instrs s + 1) in
    exists st', step E s = SCont (w_msg (fview st') (w_part 0 (moved_on s))) /\ history (E_L E) (E_rx E) (E_M E) st' /\
      builds st' (concat (map (fun x => BuildSpec.field (fst x) (snd x))
                    (enclosing_fields (E_L E) (E_M E) (edit_env E s) st (map (tx E s) headers) (option_map (tx E s) subject))) ++
                  delimiter boundary ++ plain_ct ++ Build.crlf ++ utf8 (tx E s body) ++
                  delimiter boundary ++ BuildSpec.field (lit "Content-Type") (lit "message/rfc822") ++ Build.crlf ++ B ++
                  closing boundary).
Proof.
  intros E s headers subject body st B AT V HI BU NQ NC boundary.
  destruct (C77_enclose_partial (E_L E) (E_rx E) (E_M E) (edit_env E s) (map (tx E s) headers) (option_map (tx E s) subject) (tx E s body) st B HI BU NQ) as (st' & F & B').
  { intros h g Ih Ig. apply in_map_iff in Ih as (h0 & <- & Ih). exact (NC h0 g Ih Ig). }
  exists st'. split; [exact (enclose_run E s st st' _ _ _ AT V F)|]. split; [eapply h_enclose; eassumption|exact B'].
Qed.
Print Assumptions C95_enclose_partial.

(** convert: every part of the type is converted, every other part stays as it is. *)
Theorem C95_convert :
  forall E s from to,
    at_instr E s (IxConvert from to) -> step E s <> SPanic ->
    exists m, step E s = SCont (w_msg m (moved_on s)) /\ converted E (tx E s from) (tx E s to) (parts s) (ms_parts m) /\
      (ms_changed m = true <-> ms_changed (r_msg s) = true \/ convertible E (tx E s from) (tx E s to) (parts s)).
Proof.
  intros E s from to AT NP. apply step_instr in AT. cbn [exec_instr] in AT. rewrite env_same in AT.
  change (step E s = match convert (edit_env E s) (tx E s from) (tx E s to) (r_msg s) with None => SPanic | Some (_, m) => SCont (w_msg m (moved_on s)) end) in AT.
  destruct (convert (edit_env E s) (tx E s from) (tx E s to) (r_msg s)) as [[d m]|] eqn:C; [|contradiction].
  destruct (convert_exact E (edit_env E s) _ _ eq_refl eq_refl _ _ _ C) as (C1 & C2 & C3). exists m. split; [exact AT|]. split; [exact C1|].
  unfold parts. rewrite <- C2, C3. apply Bool.orb_true_iff.
Qed.
Print Assumptions C95_convert.
(** As a test it also says whether a part was converted. *)
Theorem C92_convert :
  forall E s from to neg,
    at_test E s (TeConvert from to neg) -> step E s <> SPanic ->
    exists m b, step E s = SCont (w_test b (w_msg m (moved_on s))) /\ converted E (tx E s from) (tx E s to) (parts s) (ms_parts m) /\
      (b = true <-> (convertible E (tx E s from) (tx E s to) (parts s) <-> neg = false)) /\
      (ms_changed m = true <-> ms_changed (r_msg s) = true \/ convertible E (tx E s from) (tx E s to) (parts s)).
Proof.
  intros E s from to neg AT NP. apply (step_test E) in AT. cbn [exec_test] in AT. rewrite env_same in AT.
  change (tx E (moved_on s)) with (tx E s) in AT. change (r_msg (moved_on s)) with (r_msg s) in AT.
  destruct (convert (edit_env E s) (tx E s from) (tx E s to) (r_msg s)) as [[d m]|] eqn:C; [|contradiction].
  destruct (convert_exact E (edit_env E s) _ _ eq_refl eq_refl _ _ _ C) as (C1 & C2 & C3). exists m, (xorb d neg). split; [exact AT|]. split; [exact C1|].
  unfold parts. rewrite <- C2, C3. split; [|apply Bool.orb_true_iff].
  destruct d, neg; cbn; intuition congruence.
Qed.
Print Assumptions C92_convert.

(** addheader, deleteheader: the current part is edited as C14 and C15 say, by the texts of the arguments. *)
Theorem C95_addheader :
  forall E s name v last p,
    at_instr E s (IxAddHeader name v last) -> nth_error (parts s) (r_part s) = Some p ->
    let clean := filter (fun c => chr_is_alnum (E_L E) c || N.eqb c 45) (tx E s name) in
    (forall hn, hn_parse (E_M E) clean = Some hn -> clean <> [] -> (forall q, In q (E_protected E) -> hn_eqb hn q = false) ->
     exists m v', step E s = SCont (w_msg m (moved_on s)) /\ length (ms_parts m) = length (parts s) /\ ms_changed m = true /\
       cut_to (E_max_header E) (no_crlf (tx E s v)) v' /\
       nth_error (ms_parts m) (r_part s) =
         Some (set_headers (if last then p_headers p ++ [new_header hn v'] else new_header hn v' :: p_headers p) p) /\
       forall j, j <> r_part s -> nth_error (ms_parts m) j = nth_error (parts s) j) /\
    ((clean = [] \/ forall hn, hn_parse (E_M E) clean = Some hn -> exists q, In q (E_protected E) /\ hn_eqb hn q = true) ->
     step E s = SCont (w_msg (r_msg s) (moved_on s))).
Proof.
  intros E s name v last p AT N clean. apply step_instr in AT.
  change (step E s = edit_msg (add_header (E_L E) (E_M E) (E_protected E) (E_max_header E) (tx E s name) (tx E s v) last (r_part s) (r_msg s)) (moved_on s)) in AT.
  unfold add_header in AT. fold clean in AT. split.
  - intros hn P C Q. rewrite P in AT. destruct clean as [|c cl]; [contradiction|].
    assert (existsb (hn_eqb hn) (E_protected E) = false) as X.
    { destruct (existsb (hn_eqb hn) (E_protected E)) eqn:X; [|reflexivity]. apply existsb_exists in X as (q & I & X). rewrite (Q q I) in X. discriminate. }
    rewrite X in AT. unfold insert_header in AT. cbn [ms_parts ms_changed ms_size] in AT.
    set (v' := remove_crlf (E_max_header E) (tx E s v)) in AT.
    destruct (update_nth_spec (fun p => Some (set_headers (if last then p_headers p ++ [new_header hn v'] else new_header hn v' :: p_headers p) p))
                (ms_parts (r_msg s)) (r_part s) p _ N eq_refl) as (l & U & UL & UN & UO).
    rewrite U in AT. cbn [option_map edit_msg] in AT. eexists. exists v'. split; [exact AT|]. cbn [ms_parts ms_changed]. split; [exact UL|]. split; [reflexivity|].
    split; [apply remove_crlf_cut|]. split; [exact UN|]. intros j J. apply UO. exact J.
  - intros R. destruct clean as [|c cl]; [exact AT|]. destruct R as [R|R]; [discriminate|].
    destruct (hn_parse (E_M E) (c :: cl)) as [h|]; [|exact AT]. destruct (R h eq_refl) as (q & I & X).
    assert (existsb (hn_eqb h) (E_protected E) = true) as Y by (apply existsb_exists; exists q; split; assumption). rewrite Y in AT. exact AT.
Qed.
Print Assumptions C95_addheader.
Theorem C95_deleteheader :
  forall E s name index anychild c m patterns,
    (forall c, chr_lower (E_L E) c <> []) ->
    at_instr E s (IxDeleteHeader name index anychild c m patterns) ->
    well_formed (parts s) -> r_part s < length (parts s) -> headers_size (parts s) <= ms_size (r_msg s) ->
    (forall hn, hn_parse (E_M E) (tx E s name) = Some hn -> (forall q, In q (E_protected E) -> hn_eqb hn q = false) ->
     let gone j p pos := exists h, looked_at (parts s) (r_part s) anychild j p /\
                          selected index hn (p_headers p) pos h /\ satisfies (E_L E) (E_rx E) (E_M E) c m (map (Run.ev E s) patterns) h in
     exists m', step E s = SCont (w_msg m' (moved_on s)) /\ length (ms_parts m') = length (parts s) /\
       (forall j p, nth_error (parts s) j = Some p ->
          exists p', nth_error (ms_parts m') j = Some p' /\ same_but_headers p p' /\
            without (gone j p) 0 (p_headers p) (p_headers p')) /\
       (ms_changed m' = true <-> ms_changed (r_msg s) = true \/ exists j p pos, gone j p pos)) /\
    ((forall hn, hn_parse (E_M E) (tx E s name) = Some hn -> exists q, In q (E_protected E) /\ hn_eqb hn q = true) ->
     step E s = SCont (w_msg (r_msg s) (moved_on s))).
Proof.
  intros E s name index anychild c m patterns CL AT WF RP HS. apply step_instr in AT.
  change (step E s = edit_msg (delete_header (E_L E) (E_rx E) (E_M E) (E_protected E) (tx E s name) index anychild c m (map (Run.ev E s) patterns) (r_part s) (r_msg s)) (moved_on s)) in AT.
  split.
  - intros hn P Q gone. destruct (PropertiesEdit.C15_deleteheader_exact (E_L E) (E_rx E) (E_M E) CL (E_protected E) (tx E s name) hn index anychild c m
      (map (Run.ev E s) patterns) (r_part s) (r_msg s) WF RP P Q HS) as (m' & D & A1 & A2 & _ & _ & A5).
    rewrite D in AT. exists m'. split; [exact AT|]. split; [exact A1|]. split; [exact A2|exact A5].
  - intros R. rewrite (PropertiesEdit.C15_refused_names_delete_nothing _ _ _ _ _ _ _ _ _ _ _ _ R) in AT. exact AT.
Qed.
Print Assumptions C95_deleteheader.

(** C92: the test before a vacation action asks the host whether the sender got such a reply, if a
    reply may be sent at all, and is true if not. *)
Theorem C92_vacation :
  forall E s addresses handle reason p root rest,
    at_test E s (TeVacation addresses handle reason p) -> parts s = root :: rest ->
    let view := vacation_view E s (p_headers root) in let given := vacation_given E s addresses handle reason p in
    (forall from n, may_reply (E_L E) (E_addrs E) view given from -> quiet_for E p n -> (n <= u64_max)%N ->
     exists s', step E s = SYield s' (OEvent (EDuplicateId (lit "_v" ++ lower_text from ++ tx E s (match handle with Some h => h | None => reason end)) n false)) /\
       feed InFalse s' = w_test true (moved_on s) /\ feed InTrue s' = w_test false (moved_on s)) /\
    ((forall from, ~ may_reply (E_L E) (E_addrs E) view given from) -> step E s = SCont (w_test false (moved_on s))).
Proof.
  intros E s addresses handle reason p root rest AT P view given. apply (step_test E) in AT. cbn [exec_test] in AT.
  change (parts (moved_on s)) with (parts s) in AT. rewrite P in AT.
  change (vacation_env E (moved_on s) (p_headers root)) with view in AT.
  change (vacation_args (txs E (moved_on s) addresses) (otx E (moved_on s) handle) (tx E (moved_on s) reason) p None None false None) with given in AT.
  split.
  - intros from n MR QF SM. apply C44_reply_considered_iff in MR as [MR _]. rewrite MR in AT. exists (w_test true (moved_on s)).
    split; [|split; reflexivity].
    destruct handle as [h|], p as [d|x|]; cbn [quiet_for] in QF; subst n; try exact AT; apply N.leb_le in SM;
      cbn [given vacation_given va_period] in AT; rewrite SM in AT; exact AT.
  - intros NR. apply C44_no_reply_otherwise in NR. rewrite NR in AT. exact AT.
Qed.
Print Assumptions C92_vacation.

(** *** Examples *)
(** The message of PropertiesBuild, and scripts that edit it. *)
Definition E95 : renv :=
  {| E_L := ascii_lib; E_rx := no_rx; E_M := any_name; E_A := toy_ap; E_utf8 := ascii_dec;
     E_caps := [CapKnown 1; CapKnown 2; CapVariables]; E_uris := [lit "mailto"]; E_lists := []; E_protected := [lit "Received"];
     E_metadata := []; E_scripts := no_scripts; E_fns := fun _ _ => None;
     E_max_includes := 3; E_cpu := 100; E_max_var := 1000; E_max_redirects := 2;
     E_timestamp := fun _ => 0%Z; E_max_received := 10; E_max_header := 100; E_max_out := 5; E_vac_expiry := 100%N; E_dup_expiry := 50%N;
     E_vac_orcpt := false; E_vac_subject := lit "Away"; E_vac_prefix := lit "Auto: "; E_user := lit "me@my.org"; E_name := [];
     E_spam := SpUnknown; E_virus := ViUnknown; E_msgvar := fun _ _ _ => None;
     E_bytes := fun m => lit "M"; E_body := fun _ _ => None; E_h2t := fun _ => lit "T"; E_t2h := fun _ => lit "H";
     E_psize := fun p => match p_body p with BText _ => 39 | BHtml _ => 37 | _ => 175 end; E_subject := fun _ => Some (lit "hi"); E_raw_subject := fun _ => None; E_msg_id := fun _ => Some (lit "id1"); E_header_id := fun _ => None;
     E_addrs := vaddrs; E_raw := fun _ => None; E_has_addr := fun _ _ => false;
     E_now := fun _ => toy_dt; E_date := fun _ => lit "D"; E_new_id := fun _ => lit "I"; E_boundary := fun _ => lit "B" |}.
Definition editing (l : list instruction) : rst := feed (main l) (initial (map view sample_parts) 175 vars0).
Lemma at_first l i l' : l = i :: l' -> at_instr E95 (editing l) i.
Proof. intros ->. split; [discriminate|]. split; [reflexivity|]. change (0 < 100). lia. Qed.
Lemma shows_sample s : fview sample_state = r_msg s -> shows E95 s sample_state.
Proof.
  intro V. split; [exact V|]. intros p I. repeat (destruct I as [<-|I]; [|]); try contradiction I; (split; [reflexivity|]);
    intros h Ih; repeat (destruct Ih as [<-|Ih]; [|]); try contradiction Ih; (split; [reflexivity|discriminate]).
Qed.
(** What the engine writes for the message of a run, and whether the run goes on. *)
Definition goes_on (r : sres) : bool := match r with SCont _ => true | _ => false end.
Lemma no_panic r : goes_on r = true -> r <> SPanic.
Proof. intros H ->. discriminate. Qed.

Example C95_replace_example :
  let i := IxReplace (Some (str "s")) (Some (str "f@x")) (str "new") false in
  at_instr E95 (editing [i]) i /\ r_part (editing [i]) = 0 /\ shows E95 (editing [i]) sample_state /\
  history (E_L E95) (E_rx E95) (E_M E95) sample_state /\ step E95 (editing [i]) <> SPanic /\
  concat (root_fields (edit_env E95 (editing [i])) sample_raw (Some (lit "s")) (Some (lit "f@x")) false (fp_headers (nth 0 sample_parts (FPart [] None (FMulti []) false 0 0 0)))) =
  line "Original-Subject: hi" ++ line "Original-From: a@x" ++ line "To: b@x" ++ line "From: f@x" ++ line "Subject: s" ++
      line "Date: D" ++ line "Message-ID: I" ++ line "Content-Type: text/plain; charset=utf-8".
Proof.
  intro i. split; [eapply at_first; reflexivity|]. split; [reflexivity|]. split; [apply shows_sample; reflexivity|]. split; [apply sample_history|].
  split; [apply no_panic; vm_compute; reflexivity|vm_compute; reflexivity].
Qed.
Example C95_replace_part_example :
  let i := IxReplace None None (str "new") false in let s := w_part 1 (editing [i]) in
  at_instr E95 s i /\ r_part s <> 0 /\ shows E95 s sample_state /\
  (exists p, nth_error (fs_parts sample_state) (r_part s) = Some p /\ leaf (fp_body p)) /\ step E95 s <> SPanic.
Proof.
  intros i s. split; [split; [discriminate|]; split; [reflexivity|]; change (0 < 100); lia|]. split; [discriminate|]. split; [apply shows_sample; reflexivity|].
  split; [eexists; split; [reflexivity|discriminate]|apply no_panic; vm_compute; reflexivity].
Qed.
Example C95_enclose_example :
  let i := IxEnclose [str "X-B: c"] None (str "look") in
  at_instr E95 (editing [i]) i /\ builds sample_state sample_raw /\ ~ In 34%N (E_boundary E95 (r_instrs (editing [i]) + 1)) /\
  (forall h g, In h [str "X-B: c"] -> In g (enclose_given (E_L E95) (E_M E95) (edit_env E95 (editing [i])) (tx E95 (editing [i]) h)) ->
     teqb_ic (fst (snd g)) (lit "Content-Type") = false) /\
  enclosing_fields (E_L E95) (E_M E95) (edit_env E95 (editing [i])) sample_state [lit "X-B: c"] None =
    [(lit "Content-Type", lit "multipart/mixed; boundary=""B"""); (lit "Subject", lit "hi"); (lit "X-B", lit "c"); (lit "From", lit "me@my.org");
     (lit "Date", lit "D"); (lit "Message-ID", lit "I")].
Proof.
  intro i. split; [eapply at_first; reflexivity|]. split; [apply (C73_unedited sample_state sample_tree [] sample_parsed)|].
  split; [intros [H|[]]; discriminate|]. split; [|vm_compute; reflexivity].
  intros h g [<-|[]] Ig. vm_compute in Ig. destruct Ig as [<-|[]]. reflexivity.
Qed.
Example C95_convert_example :
  let i := IxConvert (str "text/html") (str "text/plain") in
  at_instr E95 (editing [i]) i /\ step E95 (editing [i]) <> SPanic /\
  convertible E95 (lit "text/html") (lit "text/plain") (parts (editing [i])).
Proof.
  intro i. split; [eapply at_first; reflexivity|]. split; [apply no_panic; vm_compute; reflexivity|].
  exists (nth 2 (map view sample_parts) (Part [] None (BText []))). eexists. split; [right; right; left; reflexivity|].
  eapply cv_html; [reflexivity|reflexivity|reflexivity|]. instantiate (1 := Part _ _ _). split; [reflexivity|]. split; reflexivity.
Qed.
(** convert from text/plain converts texts of every type but text/html: here a table. *)
Theorem C95_convert_type_refuted :
  exists E p q, p_ct p = Some {| ct_type := lit "text"; ct_subtype := Some (lit "csv"); ct_attrs := None |} /\
    converts E (lit "text/plain") (lit "text/html") p q.
Proof.
  exists E95. eexists (Part [] _ (BText (lit "a,b"))). eexists (Part _ _ _). split; [reflexivity|].
  eapply cv_text with (r := lit "plain"); [reflexivity|discriminate|reflexivity|reflexivity|]. split; [reflexivity|]. split; reflexivity.
Qed.
Print Assumptions C95_convert_type_refuted.
(** Run on it. *)
Example C95_convert_type_run :
  let table := [Part [] (Some {| ct_type := lit "text"; ct_subtype := Some (lit "csv"); ct_attrs := None |}) (BText (lit "a,b"))] in
  match step E95 (feed (main [IxConvert (str "text/plain") (str "text/html")]) (initial table 100 vars0)) with
  | SCont s => map p_body (parts s) | _ => [] end = [BHtml (lit "H")].
Proof. vm_compute. reflexivity. Qed.
Example C95_header_examples :
  let a := IxAddHeader (str "X-New") (str "v") true in
  let d := IxDeleteHeader (str "Subject") None false COctet MIs [str "hi"] in
  at_instr E95 (editing [a]) a /\ at_instr E95 (editing [d]) d /\
  hn_parse (E_M E95) (filter (fun c => chr_is_alnum (E_L E95) c || N.eqb c 45) (lit "X-New")) = Some (lit "X-New") /\
  well_formed (parts (editing [d])) /\ headers_size (parts (editing [d])) <= ms_size (r_msg (editing [d])) /\
  selected None (lit "Subject") (p_headers (nth 0 (map view sample_parts) (Part [] None (BText [])))) 0 (fh_view (hdr "Subject" "hi" 0 8 13)).
Proof.
  intros a d. split; [eapply at_first; reflexivity|]. split; [eapply at_first; reflexivity|]. split; [vm_compute; reflexivity|].
  split; [exact sample_view_wf|]. split; [apply Nat.leb_le; vm_compute; reflexivity|]. split; [reflexivity|]. split; [reflexivity|exact Logic.I].
Qed.
Example C92_vacation_example :
  let t := TeVacation [] None (str "gone") (PDays 2) in
  at_test E1 (started [IxTest t]) t /\
  (exists x, step E1 (started [IxTest t]) = SYield x (OEvent (EDuplicateId (lit "_vann@b.orggone") 172800 false))) /\
  (172800 <= u64_max)%N /\
  may_reply (E_L E1) (E_addrs E1) (vacation_view E1 (started [IxTest t]) (p_headers (nth 0 msg0 (Part [] None (BText [])))))
    (vacation_given E1 (started [IxTest t]) [] None (str "gone") (PDays 2)) (lit "ann@b.org").
Proof.
  intro t. split; [split; [discriminate|]; split; [reflexivity|]; change (0 < 100); lia|]. split; [eexists; vm_compute; reflexivity|]. split; [discriminate|].
  apply C44_reply_considered_iff. split; [vm_compute; reflexivity|].
  exists [], (VStr (lit "ann@b.org")), (tl (c_envelope vars0)). split; [reflexivity|]. split; [reflexivity|]. split; [reflexivity|].
  intros v' [H|[]]. discriminate H.
Qed.
