(** Property C79: the header fields that replace and enclose write. *)
From Verif Require Import Base Lib Var Value Message EditHeader EditHeaderSpec Mime Build BuildSpec FieldsSpec FieldsProofs BuildProofs6
  PropertiesCompare PropertiesMessage PropertiesBuild.
Import ListNotations.
Local Open Scope string_scope.
Local Open Scope list_scope.

(** The message that replace makes starts with fields of the old message and at most five
    new ones, each a single line whatever the script gave. *)
Theorem C79_replace : forall L rx M E s f b mime st st',
  history L rx M st -> freplace E s f b mime 0 st = Some st' ->
  unbroken (me_from E) -> unbroken (me_date E) -> unbroken (me_msgid E) ->
  exists p new, nth_error (fs_parts st) 0 = Some p /\ Forall one_line new /\ List.length new <= 5 /\
  builds st' (concat (flat_map (after_replace (fs_raw st) (given_subject s) (given_subject f)) (fp_headers p)) ++ concat new ++
              (if mime then [] else crlf) ++ utf8 b ++ rest_of (fs_raw st) (fp_oe p)).
Proof.
  intros L rx M E s f b mime st st' H R A B C. destruct (C76_replace_message L rx M E s f b mime st st' H R) as (p & P & W).
  destruct (root_fields_new E (fs_raw st) s f mime (fp_headers p) A B C) as (new & N & O & Z). exists p, new.
  rewrite N, concat_app, <- app_assoc in W. auto.
Qed.
Print Assumptions C79_replace.

(** The fields of the message that enclose makes (C77) are single lines, if the names the
    script gives have no line breaks.  Full statement: for all names, which is false. *)
Theorem C79_enclose_partial : forall L M E st hs s,
  unbroken (me_boundary E) -> unbroken (me_from E) -> unbroken (me_date E) -> unbroken (me_msgid E) ->
  (forall t, me_subject E (fview st) = Some t -> unbroken t) ->
  (forall h a b, In h hs -> h = a ++ 58%N :: b -> ~ In 58%N a -> unbroken a) ->
  Forall (fun x => one_line (field (fst x) (snd x))) (enclosing_fields L M E st hs s).
Proof. exact enclosing_one_line. Qed.
Print Assumptions C79_enclose_partial.
(** Those that it does not make itself come from the script, and none is protected. *)
Theorem C79_protected : forall L M E st hs s n v, In (n, v) (enclosing_fields L M E st hs s) ->
  In n (map lit ["Content-Type"; "Subject"; "From"; "Date"; "Message-ID"]) \/
  exists h, In h hs /\ taken L M E h n v.
Proof. exact enclosing_sources. Qed.
Print Assumptions C79_protected.

(** Arguments with line breaks in the values, and one with a protected name. *)
Definition guarded : mimeenv :=
  {| me_psize := fun _ => 0; me_max_header := 100; me_protected := [lit "Received"]; me_from := lit "me@x"; me_date := lit "today";
     me_msgid := lit "<1@x>"; me_boundary := lit "bb"; me_subject := fun _ => Some (lit "hi");
     me_h2t := fun t => lit "T"; me_t2h := fun t => lit "H" |}.
Definition broken : list text := [lit "X-B: c" ++ [13; 10]%N ++ lit "X-C: d"; lit "received: x"].
Example C79_case :
  enclosing_fields ascii_lib no_mp guarded sample_state broken None =
    [(lit "Content-Type", lit "multipart/mixed; boundary=""bb"""); (lit "Subject", lit "hi"); (lit "X-B", lit "cX-C: d");
     (lit "From", lit "me@x"); (lit "Date", lit "today"); (lit "Message-ID", lit "<1@x>")] /\
  (forall h a b, In h broken -> h = a ++ 58%N :: b -> ~ In 58%N a -> unbroken a) /\
  exists st', freplace guarded (Some (lit "a" ++ [13; 10]%N ++ lit "b")) None (lit "new") true 0 sample_state = Some st' /\
    builds st' (line "Original-Subject: hi" ++ line "From: a@x" ++ line "To: b@x" ++ line "From: me@x" ++ line "Subject: ab" ++
      line "Date: today" ++ line "Message-ID: <1@x>" ++ lit "new").
Proof.
  split; [vm_compute; reflexivity|]. split.
  - assert (Q : forall a b n v, n ++ 58%N :: v = a ++ 58%N :: b -> ~ In 58%N a -> ~ In 58%N n -> n = a).
    { induction a as [|x a IH]; intros b [|y n] v H A N; cbn in H; inversion H as [[H1]]; subst; clear H.
      - reflexivity.
      - exfalso. apply N. left. reflexivity.
      - exfalso. apply A. left. reflexivity.
      - f_equal. eapply IH; [eassumption| |]; intro; [apply A|apply N]; right; assumption. }
    intros h a b [<-|[<-|[]]] H A.
    + rewrite <- (Q a b (lit "X-B") (skipn 4 (lit "X-B: c" ++ [13; 10]%N ++ lit "X-C: d")) H A).
      * apply unbroken_lit. reflexivity.
      * vm_compute. intuition discriminate.
    + rewrite <- (Q a b (lit "received") (skipn 9 (lit "received: x")) H A).
      * apply unbroken_lit. reflexivity.
      * vm_compute. intuition discriminate.
  - destruct (freplace guarded (Some (lit "a" ++ [13; 10]%N ++ lit "b")) None (lit "new") true 0 sample_state) as [st'|] eqn:X;
      [|vm_compute in X; discriminate].
    vm_compute in X. injection X as <-. eexists. split; [reflexivity|]. apply (builds_by 20). vm_compute. reflexivity.
Qed.

(** A line break in a name adds a field, protected or not.  ([no_mp] takes every text for a
    name, as mail_parser does for every non-empty one.) *)
Theorem C79_name_refuted :
  exists st', fenclose ascii_lib no_mp guarded [lit "X" ++ [13; 10]%N ++ lit "Received: x"] None (lit "look") sample_state = Some st' /\
    exists a c, builds st' (a ++ line "X" ++ line "Received: x" ++ c).
Proof.
  destruct (fenclose ascii_lib no_mp guarded [lit "X" ++ [13; 10]%N ++ lit "Received: x"] None (lit "look") sample_state) as [st'|] eqn:X;
    [|vm_compute in X; discriminate].
  vm_compute in X. injection X as <-. eexists. split; [reflexivity|].
  exists (line "Content-Type: multipart/mixed; boundary=""bb""" ++ line "Subject: hi"). 
  exists (line "From: me@x" ++ line "Date: today" ++ line "Message-ID: <1@x>" ++
      line "" ++ line "--bb" ++ line "Content-Type: text/plain; charset=utf-8" ++ line "" ++ lit "look" ++
      line "" ++ line "--bb" ++ line "Content-Type: message/rfc822" ++ line "" ++ sample_raw ++
      line "" ++ line "--bb--").
  apply (builds_by 20). vm_compute. reflexivity.
Qed.
Print Assumptions C79_name_refuted.
