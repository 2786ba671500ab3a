(** Property C96: edits compose. *)
From Coq Require Import Lia.
From Verif Require Import Base Lib Var Value SetVar Flags Glob Comparator Message EditHeader
  Mime Build BuildSpec BuildView BuildProofs6 Event Sieve Run TestSpec TestProofs ActionSpec ActionProofs
  EditRunSpec EditRunProofs EditTreeSpec EditTreeProofs PropertiesCompare PropertiesMessage PropertiesBuild PropertiesRun PropertiesTest PropertiesEditRun.
Import ListNotations.
Local Open Scope string_scope.
Local Open Scope list_scope.

(** C96: after any number of header edits, replacements, enclosures and conversions, in any order, the message
    that is built is the tree those edits make of the tree of the original message, each of them changing its
    own part of the tree only. *)
Theorem C96_edits_compose_partial :
  forall L rx M st t tail, tree_of L rx M st t tail -> builds st (render t ++ tail).
Proof. exact tree_builds. Qed.
Print Assumptions C96_edits_compose_partial.

(** In a running script: the current part is replaced ... *)
Theorem C96_replace_part_in_run :
  forall E s subject from body mime st t tail p,
    at_instr E s (IxReplace subject from body mime) -> r_part s <> 0 -> shows E s st -> tree_of (E_L E) (E_rx E) (E_M E) st t tail ->
    nth_error (fs_parts st) (r_part s) = Some p -> leaf (fp_body p) -> step E s <> SPanic ->
    let t' := exchange (swapped (r_part s) (Node (r_part s) (if mime then [] else [plain_ct]) (negb mime) (Leaf (utf8 (tx E s body))))) t in
    exists st', step E s = SCont (w_msg (fview st') (moved_on s)) /\ tree_of (E_L E) (E_rx E) (E_M E) st' t' tail /\ builds st' (render t' ++ tail).
Proof.
  intros E s subject from body mime st t tail p AT RP SH T N LE NP t'. destruct (replace_run E s st _ _ _ _ AT SH NP) as (st' & F & ST).
  exists st'. split; [exact ST|]. assert (T' : tree_of (E_L E) (E_rx E) (E_M E) st' t' tail) by (eapply to_part; eassumption).
  split; [exact T'|eapply tree_builds; exact T'].
Qed.
Print Assumptions C96_replace_part_in_run.

(** ... the parts of a type are converted ... *)
Theorem C96_convert_in_run :
  forall E s from to st t tail,
    at_instr E s (IxConvert from to) -> shows E s st -> tree_of (E_L E) (E_rx E) (E_M E) st t tail -> step E s <> SPanic ->
    exists st' t', step E s = SCont (w_msg (fview st') (moved_on s)) /\ tree_of (E_L E) (E_rx E) (E_M E) st' t' tail /\ builds st' (render t' ++ tail) /\
      match conversion_of (tx E s from) (tx E s to) with
      | Some cv => t' = exchange (conversion_result (edit_env E s) cv (fs_parts st)) t
      | None => t' = t /\ st' = st
      end.
Proof.
  intros E s from to st t tail AT [V A] T NP. apply step_instr in AT. cbn [exec_instr] in AT. rewrite env_same in AT.
  change (step E s = match convert (edit_env E s) (tx E s from) (tx E s to) (r_msg s) with None => SPanic | Some (_, m) => SCont (w_msg m (moved_on s)) end) in AT.
  rewrite <- V, <- (convert_view _ _ _ _ A) in AT.
  destruct (fconvert (edit_env E s) (tx E s from) (tx E s to) st) as [[d st']|] eqn:F; [|contradiction]. cbn [option_map fst snd] in AT.
  destruct (conversion_of (tx E s from) (tx E s to)) as [cv|] eqn:C.
  - exists st', (exchange (conversion_result (edit_env E s) cv (fs_parts st)) t). split; [exact AT|].
    assert (T' : tree_of (E_L E) (E_rx E) (E_M E) st' (exchange (conversion_result (edit_env E s) cv (fs_parts st)) t) tail) by (eapply to_converted; eassumption).
    split; [exact T'|]. split; [eapply tree_builds; exact T'|reflexivity].
  - unfold fconvert in F. rewrite C in F. injection F as <- <-. exists st, t. split; [exact AT|]. split; [exact T|]. split; [eapply tree_builds; exact T|split; reflexivity].
Qed.
Print Assumptions C96_convert_in_run.

(** ... and header fields are added and deleted (which ones: C95), as long as those the engine wrote to tell the
    types of its parts are left. *)
Theorem C96_header_edit_in_run :
  forall E s i st t tail,
    at_instr E s i -> (exists n v last, i = IxAddHeader n v last) \/ (exists n ix a c m k, i = IxDeleteHeader n ix a c m k) ->
    fview st = r_msg s -> tree_of (E_L E) (E_rx E) (E_M E) st t tail -> step E s <> SPanic ->
    exists st', step E s = SCont (w_msg (fview st') (moved_on s)) /\
      (keeps_types st st' ->
       let t' := with_fields (fun id => map (shown (fs_raw st)) (headers_at st' id)) t in
       tree_of (E_L E) (E_rx E) (E_M E) st' t' tail /\ builds st' (render t' ++ tail)).
Proof.
  intros E s i st t tail AT KI V T NP. apply step_instr in AT.
  assert (H : exists st', header_edit (E_L E) (E_rx E) (E_M E) st st' /\ step E s = SCont (w_msg (fview st') (moved_on s))).
  { destruct KI as [(n & v & last & ->)|(n & ix & a & c & m & k & ->)].
    - change (step E s = edit_msg (add_header (E_L E) (E_M E) (E_protected E) (E_max_header E) (tx E s n) (tx E s v) last (r_part s) (r_msg s)) (moved_on s)) in AT.
      rewrite <- V, <- BuildProofs2.fadd_view in AT. destruct (fadd_header _ _ _ _ _ _ _ _ st) as [st'|] eqn:F; [|contradiction].
      exists st'. split; [eapply he_add; exact F|exact AT].
    - change (step E s = edit_msg (delete_header (E_L E) (E_rx E) (E_M E) (E_protected E) (tx E s n) ix a c m (map (Run.ev E s) k) (r_part s) (r_msg s)) (moved_on s)) in AT.
      rewrite <- V, <- BuildProofs2.fdelete_view in AT. destruct (fdelete_header _ _ _ _ _ _ _ _ _ _ _ st) as [st'|] eqn:F; [|contradiction].
      exists st'. split; [eapply he_delete; exact F|exact AT]. }
  destruct H as (st' & HE & ST). exists st'. split; [exact ST|]. intros KT t'.
  assert (T' : tree_of (E_L E) (E_rx E) (E_M E) st' t' tail) by (apply to_fields; assumption).
  split; [exact T'|eapply tree_builds; exact T'].
Qed.
Print Assumptions C96_header_edit_in_run.

(** *** Example: a field is added, part 1 replaced, the whole enclosed, and another field added. *)
Example C96_example :
  exists st t, tree_of ascii_lib no_rx no_mp st t [] /\
    render t = line "X-Top: z" ++ line "Content-Type: multipart/mixed; boundary=""bb""" ++ line "Subject: hi" ++ line "From: me@x" ++ line "Date: today" ++
      line "Message-ID: <1@x>" ++ line "" ++ line "--bb" ++ line "Content-Type: text/plain; charset=utf-8" ++ line "" ++ lit "look" ++
      line "" ++ line "--bb" ++ line "Content-Type: message/rfc822" ++ line "" ++
        line "Subject: hi" ++ line "From: a@x" ++ line "To: b@x" ++ line "Content-Type: multipart/mixed; boundary=q" ++ line "X-New: v" ++ line "" ++
        line "--q" ++ line "Content-Type: text/plain; charset=utf-8" ++ line "" ++ line "new" ++
        line "--q" ++ line "Content-Type: text/html" ++ line "" ++ line "<b>two</b>" ++ line "--q--" ++
      line "" ++ line "--bb--".
Proof.
  destruct (fadd_header ascii_lib no_mp [] 100 (lit "X-New") (lit "v") true 0 sample_state) as [s1|] eqn:E1; [|vm_compute in E1; discriminate].
  assert (T0 : tree_of ascii_lib no_rx no_mp sample_state sample_tree []).
  { apply to_start; [exact sample_parsed|]. intros i Hi. cbn in Hi. cbn. lia. }
  assert (K1 : keeps_types sample_state s1). { vm_compute in E1. injection E1 as <-. intro id. do 3 (destruct id as [|id]; [reflexivity|]). unfold headers_at. destruct id; reflexivity. }
  pose proof (to_fields _ _ _ _ _ _ _ T0 (he_add _ no_rx _ _ _ _ _ _ _ _ _ E1) K1) as T1.
  destruct (freplace PropertiesBuild.env0 None None (lit "new") false 1 s1) as [s2|] eqn:E2; [|vm_compute in E1; injection E1 as <-; vm_compute in E2; discriminate].
  assert (P2 : exists p, nth_error (fs_parts s1) 1 = Some p /\ leaf (fp_body p)). { vm_compute in E1. injection E1 as <-. eexists. split; [reflexivity|discriminate]. }
  destruct P2 as (p2 & N2 & L2). pose proof (to_part _ _ _ _ _ _ _ _ _ _ _ 1 p2 s2 T1 ltac:(discriminate) N2 L2 E2) as T2.
  destruct (fenclose ascii_lib no_mp PropertiesBuild.env0 [] None (lit "look") s2) as [s3|] eqn:E3; [|vm_compute in E1; injection E1 as <-; vm_compute in E2; injection E2 as <-; vm_compute in E3; discriminate].
  pose proof (to_enclosed ascii_lib no_rx no_mp s2 _ [] PropertiesBuild.env0 [] None (lit "look") s3 T2 ltac:(vm_compute; intros [H|[H|[]]]; discriminate) ltac:(intros h g []) E3) as T3.
  destruct (fadd_header ascii_lib no_mp [] 100 (lit "X-Top") (lit "z") false 0 s3) as [s4|] eqn:E4;
    [|vm_compute in E1; injection E1 as <-; vm_compute in E2; injection E2 as <-; vm_compute in E3; injection E3 as <-; vm_compute in E4; discriminate].
  assert (K4 : keeps_types s3 s4).
  { vm_compute in E1; injection E1 as <-; vm_compute in E2; injection E2 as <-; vm_compute in E3; injection E3 as <-; vm_compute in E4; injection E4 as <-.
    intro id. do 3 (destruct id as [|id]; [reflexivity|]). unfold headers_at. destruct id; reflexivity. }
  pose proof (to_fields _ _ _ _ _ _ _ T3 (he_add _ no_rx _ _ _ _ _ _ _ _ _ E4) K4) as T4.
  eexists. eexists. split; [exact T4|]. clear - E1 E2 E3 E4.
  vm_compute in E1; injection E1 as <-; vm_compute in E2; injection E2 as <-; vm_compute in E3; injection E3 as <-; vm_compute in E4; injection E4 as <-.
  vm_compute. reflexivity.
Qed.
