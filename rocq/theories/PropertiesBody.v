(** Property C91: what a body test searches. *)
From Verif Require Import Base Lib Utf8 Var Value Glob Comparator ComparatorSpec ComparatorProofs2 PropertiesCompare Message MessageSpec MessageProofs2
  Mime Sieve Build PropertiesBuild PropertiesMessage DecodeSpec BodyText BodySpec BodyProofs.

(** C91: the text that ':raw', ':text' and ':content' search in a part is the one of
    the specification, and parts for which it names none are not searched. *)
Theorem C91_searched :
  forall h2t bt raw p t, body_text h2t bt raw p = Some t <-> searched h2t raw p bt t.
Proof. exact body_text_searched. Qed.
Print Assumptions C91_searched.

(** C91: a body test is true exactly when the text searched in some part at or below
    the current one, of one of the types asked for, matches a key; parts of nested messages
    are read from the bytes of the nested message. *)
Theorem C91_test :
  forall L rx h2t, (forall c, chr_lower L c <> []) ->
  forall raw parts current types bt c m is_not keys,
    wf_deep (map view parts) -> single_value_match m ->
    exists b, body_test_full L rx h2t raw parts current types bt c m is_not keys = Some (TBool (xorb b is_not) []) /\
      (b = true <-> exists raw' p t k, within raw parts current raw' p /\ chosen types p /\
         searched h2t raw' p bt t /\ In k keys /\ key_matches L rx c (plain_mtype m) (KStr t) (KVar k)).
Proof. exact (fun L rx h2t low1 => body_full_exact L rx h2t low1). Qed.
Print Assumptions C91_test.

(** C91: the test that a run makes is this one, when the texts of the parts are these. *)
Theorem C91_run_agrees :
  forall L rx h2t raw parts current types bt texts c m is_not keys,
    (forall raw' p, within raw parts current raw' p -> texts (view p) = body_text h2t bt raw' p) ->
    wf_deep (map view parts) ->
    body_test L rx (map view parts) current types texts c m is_not keys =
    body_test_full L rx h2t raw parts current types bt c m is_not keys.
Proof. exact body_full_view. Qed.
Print Assumptions C91_run_agrees.

(** C91: the types of ':content' are words, or two words with a slash; other texts are no type. *)
Theorem C91_types : forall s f, ctfilter_parse s = Some f <-> written_type s f.
Proof. exact filter_written. Qed.
Print Assumptions C91_types.

(** C91: of a multipart, ':content' searches the prologue and the epilogue. *)
Theorem C91_prologue_epilogue :
  forall b pro mid epi t, ~ In 10%N b -> ~ occurs dashes pro -> ~ occurs dashes epi ->
    outside b (pro ++ delimiter b ++ mid ++ delimiter b ++ lit "--" ++ epi) t <-> t = pro ++ epi.
Proof.
  intros b pro mid epi t NB NP NE. pose proof (outside_well b pro mid epi NB NP NE) as W. split.
  - intro O. exact (outside_unique _ _ _ _ O W).
  - intros ->. exact W.
Qed.
Print Assumptions C91_prologue_epilogue.

(** C91 is false of a multipart without a prologue, one whose body begins with the
    boundary: what is searched is the whole of the first part, as its boundary is looked
    for after a line break. *)
Theorem C91_no_prologue_refuted :
  ~ (forall b mid epi t, ~ In 10%N b -> ~ occurs dashes epi ->
       outside b (lit "--" ++ b ++ mid ++ delimiter b ++ lit "--" ++ epi) t -> t = epi).
Proof.
  intro H. specialize (H (lit "q") ([13;10;13;10]%N ++ lit "secret" ++ [13]%N) (lit "end")
    (lit "--q" ++ [13;10;13;10]%N ++ lit "secret" ++ [13]%N)).
  assert (X : forall l, Forall (fun c => c <> 10%N) l -> ~ In 10%N l).
  { intros l F I. rewrite Forall_forall in F. exact (F _ I eq_refl). }
  assert (N1 : ~ In 10%N (lit "q")) by (apply X; repeat constructor; discriminate).
  assert (N2 : ~ occurs dashes (lit "end")).
  { intros (x & y & E). assert (I : In 10%N (lit "end")) by (rewrite E; apply in_or_app; right; left; reflexivity).
    revert I. apply X. repeat constructor; discriminate. }
  specialize (H N1 N2).
  assert (O : outside (lit "q") (lit "--" ++ lit "q" ++ ([13;10;13;10]%N ++ lit "secret" ++ [13]%N) ++ delimiter (lit "q") ++ lit "--" ++ lit "end")
     (lit "--q" ++ [13;10;13;10]%N ++ lit "secret" ++ [13]%N)).
  { match goal with |- outside ?b ?s ?t => pose proof (around_outside b s) as A; replace t with (around b s); [exact A|vm_compute; reflexivity] end. }
  specialize (H O). discriminate H.
Qed.
Print Assumptions C91_no_prologue_refuted.

(** A message with a prologue, a text, an XML file, HTML, an epilogue, and an attached message. *)
Definition body_raw : list N :=
  lit "before" ++ [13;10]%N ++ lit "--q" ++ [13;10]%N ++ lit "..." ++ [13;10]%N ++ lit "--q--after" ++ lit "Subject: in" ++ lit "zz".
Definition typed (t s : string) : option ctype := Some {| ct_type := lit t; ct_subtype := Some (lit s); ct_attrs := None |}.
Definition inner_raw : list N := lit "inner bytes".
Definition body_parts : list fpart :=
  [FPart [] (Some {| ct_type := lit "multipart"; ct_subtype := Some (lit "mixed");
                     ct_attrs := Some [(lit "charset", lit "x"); (lit "boundary", lit "q")] |}) (FMulti [1; 2; 3; 4]) false 0 0 28;
   FPart [] (typed "text" "plain") (FText (lit "plain")) false 0 0 0;
   FPart [] (typed "Application" "atom+xml") (FBinary (lit "<a>xml</a>")) false 0 8 11;
   FPart [] None (FHtml (lit "<b>html</b>")) false 0 15 18;
   FPart [] (typed "message" "rfc822") (FMessage inner_raw [FPart [] None (FBinary [195; 40]%N) false 28 39 11]) false 0 0 0].
Definition strip (t : text) : text := lit "stripped " ++ t.
Definition find_body (bt : bodytransform) (types : list ctfilter) (key : string) : option tres :=
  body_test_full ascii_lib no_rx strip body_raw body_parts 0 types bt COctet MContains false [VStr (lit key)].
Example C91_example :
  body_text strip (BtContent []) body_raw (nth 0 body_parts (FPart [] None (FText []) false 0 0 0))
    = Some (lit "before" ++ [13]%N ++ lit "after") /\
  find_body BtText [] "stripped <a>xml" = Some (TBool true []) /\
  find_body BtText [] "stripped <b>html" = Some (TBool true []) /\
  find_body (BtContent []) [CtType (lit "Message")] "Subject: in" = Some (TBool true []) /\
  find_body (BtContent []) [CtTypeSubtype (lit "text") (lit "html")] "<b>html" = Some (TBool true []) /\
  find_body (BtContent []) [CtTypeSubtype (lit "text") (lit "html")] "plain" = Some (TBool false []) /\
  find_body BtRaw [] "--q" = Some (TBool true []).
Proof. vm_compute. repeat split. Qed.
Example C91_example_hyp : wf_deep (map view body_parts).
Proof.
  constructor.
  - split.
    + intros a b (p & E & I). do 5 (destruct a as [|a]; [injection E as <-; cbn in I; cbn; intuition lia|]). destruct a; discriminate.
    + intros a1 a2 b (p & E & I) (p' & E' & I').
      assert (Z : forall a p, nth_error (map view body_parts) a = Some p -> In b (part_children p) -> a = 0).
      { intros a q Eq Iq. do 5 (destruct a as [|a]; [injection Eq as <-; cbn in Iq; tauto|]). destruct a; discriminate. }
      rewrite (Z _ _ E I), (Z _ _ E' I'). reflexivity.
    + intros a p E. do 5 (destruct a as [|a]; [injection E as <-; cbn; repeat constructor; cbn; intuition lia|]). destruct a; discriminate.
  - intros p ps I B. cbn in I. repeat destruct I as [<-|I]; try discriminate; [|contradiction]. injection B as <-.
    constructor.
    + split.
      * intros a b (p & E & I). destruct a as [|[|a]]; [injection E as <-; contradiction|discriminate|discriminate].
      * intros a1 a2 b (p & E & I). destruct a1 as [|[|a]]; [injection E as <-; contradiction|discriminate|discriminate].
      * intros a p E. destruct a as [|[|a]]; [injection E as <-; constructor|discriminate|discriminate].
    + intros p ps [<-|[]] B. discriminate.
Qed.
