From Verif Require Import Base Lib Utf8 Address Var Value SetVar Flags Comparator ComparatorSpec ComparatorProofs Message MessageSpec MessageProofs MessageProofs2 ComparatorProofs2
  EditHeader Mime Sieve Build DecodeSpec DecodeProofs BodyText BodySpec.

Lemma firstn_exact {A} (a b : list A) : firstn (length a) (a ++ b) = a.
Proof. rewrite firstn_app, firstn_all, Nat.sub_diag. apply app_nil_r. Qed.
Lemma skipn_twice {A} : forall (l : list A) a b, skipn b (skipn a l) = skipn (a + b) l.
Proof. induction l as [|x l IH]; intros [|a] b; cbn [skipn plus]; try reflexivity; [apply skipn_nil|apply IH]. Qed.
Lemma get_range_at raw a b : bytes_at raw a b (get_range raw a b).
Proof.
  unfold get_range, slice, bytes_at. destruct (Nat.leb a b) eqn:E1, (Nat.leb b (length raw)) eqn:E2; cbn [andb];
    rewrite ?Nat.leb_le, ?Nat.leb_gt in *; try (right; split; [reflexivity|lia]).
  left. exists (firstn a raw), (skipn b raw). split; [|split].
  - rewrite <- (firstn_skipn a raw) at 1. f_equal. rewrite <- (firstn_skipn (b - a) (skipn a raw)) at 1. f_equal.
    rewrite skipn_twice. replace (a + (b - a)) with b by lia. reflexivity.
  - rewrite firstn_length. lia.
  - rewrite app_length, !firstn_length, skipn_length. lia.
Qed.
Lemma bytes_at_unique raw a b l l' : bytes_at raw a b l -> bytes_at raw a b l' -> l = l'.
Proof.
  intros [(x & z & E & A & B)|[-> N]] [(x' & z' & E' & A' & B')|[-> N']]; try reflexivity.
  - rewrite app_length in B, B'. subst raw.
    assert (H : x = x').
    { transitivity (firstn a (x ++ l ++ z)); [rewrite <- A; symmetry; apply firstn_exact|].
      rewrite E', <- A'. apply firstn_exact. }
    subst x'. apply app_inv_head in E'.
    transitivity (firstn (length l) (l ++ z)); [symmetry; apply firstn_exact|].
    rewrite E'. replace (length l) with (length l') by lia. apply firstn_exact.
  - exfalso. apply N'. subst raw. rewrite !app_length in *. lia.
  - exfalso. apply N. subst raw. rewrite !app_length in *. lia.
Qed.
Lemma from_utf8_reads bs : reads bs (from_utf8 bs).
Proof.
  unfold from_utf8, reads. destruct (utf8_strict bs) as [t|] eqn:E.
  - left. apply strict_inv in E. tauto.
  - right. split; [reflexivity|]. intros u S Eu. rewrite <- Eu, strict_utf8 in E by exact S. discriminate.
Qed.
Lemma reads_unique bs t t' : reads bs t -> reads bs t' -> t = t'.
Proof.
  intros [[S E]|[-> N]] [[S' E']|[-> N']]; try reflexivity.
  - assert (Some t = Some t') by (rewrite <- !strict_utf8 by assumption; congruence). congruence.
  - exfalso. exact (N' t S E).
  - exfalso. exact (N t' S' E').
Qed.
Lemma lossy_dec bs : decodes bs (utf8_lossy bs).
Proof. apply (lossy_decodes (length bs)). lia. Qed.
Lemma dec_unique bs t t' : decodes bs t -> decodes bs t' -> t = t'.
Proof. intros A B. exact (decodes_unique bs t A bs t' eq_refl B). Qed.

Lemma sw_cut s sep : starts_with s sep = true -> s = sep ++ skipn (length sep) s.
Proof. intro E. apply starts_with_spec in E as (r & ->). rewrite skipn_app, skipn_all, Nat.sub_diag. reflexivity. Qed.
Lemma split_at_some sep : forall s x y, split_at sep s = Some (x, y) -> first_cut sep s x y.
Proof.
  induction s as [|c s IH]; intros x y; cbn [split_at]; destruct (starts_with _ sep) eqn:E.
  1,3: intro H; injection H as <- <-; split; [apply sw_cut, E|intros; simpl; lia].
  - discriminate.
  - destruct (split_at sep s) as [[u v]|] eqn:ES; [|discriminate]. intro H. injection H as <- <-.
    destruct (IH u v eq_refl) as [A B]. split; [cbn [app]; rewrite A at 1; reflexivity|].
    intros [|d x'] y' Ex.
    + exfalso. cbn [app] in Ex. assert (starts_with (c :: s) sep = true) by (apply starts_with_spec; exists y'; exact Ex). congruence.
    + injection Ex as <- Ex. specialize (B _ _ Ex). simpl. lia.
Qed.
Lemma split_at_absent sep : forall s, split_at sep s = None -> ~ occurs sep s.
Proof.
  induction s as [|c s IH]; cbn [split_at]; destruct (starts_with _ sep) eqn:E; try discriminate; intros H (x & y & Ex).
  - destruct x; [|discriminate]. assert (starts_with [] sep = true) by (apply starts_with_spec; exists y; exact Ex). congruence.
  - destruct (split_at sep s); [discriminate|]. destruct x as [|d x].
    + assert (starts_with (c :: s) sep = true) by (apply starts_with_spec; exists y; exact Ex). congruence.
    + injection Ex as <- Ex. apply IH; [reflexivity|]. exists x, y. exact Ex.
Qed.
Lemma rsplit_at_absent sep : forall s, rsplit_at sep s = None -> ~ occurs sep s.
Proof.
  induction s as [|c s IH]; cbn [rsplit_at].
  - destruct (starts_with [] sep) eqn:E; [discriminate|]. intros _ (x & y & Ex). destruct x; [|discriminate].
    assert (starts_with [] sep = true) by (apply starts_with_spec; exists y; exact Ex). congruence.
  - destruct (rsplit_at sep s) as [r|]; [discriminate|].
    destruct (starts_with (c :: s) sep) eqn:E; [discriminate|]. intros _ (x & y & Ex). destruct x as [|d x].
    + assert (starts_with (c :: s) sep = true) by (apply starts_with_spec; exists y; exact Ex). congruence.
    + injection Ex as <- Ex. apply IH; [reflexivity|]. exists x, y. exact Ex.
Qed.
Lemma rsplit_at_some sep : forall s x y, rsplit_at sep s = Some (x, y) -> last_cut sep s x y.
Proof.
  assert (Z : forall s x y, starts_with s sep = true -> Some (@nil ch, skipn (length sep) s) = Some (x, y) -> x = [] /\ s = sep ++ y).
  { intros s x y E H. injection H as <- <-. split; [reflexivity|]. apply sw_cut, E. }
  induction s as [|c s IH]; intros x y; cbn [rsplit_at].
  - destruct (starts_with [] sep) eqn:E; [|discriminate]. intro H. destruct (Z _ _ _ E H) as [-> ES]. split; [exact ES|].
    intros x' y' Ex. destruct x'; [simpl; lia|discriminate].
  - destruct (rsplit_at sep s) as [[u v]|] eqn:ES.
    + intro H. injection H as <- <-. destruct (IH u v eq_refl) as [A B]. split; [cbn [app]; rewrite A at 1; reflexivity|].
      intros [|d x'] y' Ex; [simpl; lia|]. injection Ex as <- Ex. specialize (B _ _ Ex). simpl. lia.
    + destruct (starts_with (c :: s) sep) eqn:E; [|discriminate]. intro H. destruct (Z _ _ _ E H) as [-> EE]. split; [exact EE|].
      intros [|d x'] y' Ex; [simpl; lia|]. exfalso. injection Ex as <- Ex. apply (rsplit_at_absent _ _ ES). exists x', y'. exact Ex.
Qed.

Lemma cut_len (sep s x y x' y' : text) : s = x ++ sep ++ y -> s = x' ++ sep ++ y' -> length x = length x' -> x = x' /\ y = y'.
Proof.
  intros A B E. rewrite A in B. clear A. revert x' B E. induction x as [|c x IH]; intros [|d x'] B E; try discriminate.
  - split; [reflexivity|]. cbn [app] in B. apply app_inv_head in B. exact B.
  - injection B as <- B. destruct (IH x' B) as [-> ->]; [simpl in E; lia|]. auto.
Qed.
Lemma first_unique sep s x y x' y' : first_cut sep s x y -> first_cut sep s x' y' -> x = x' /\ y = y'.
Proof.
  intros [A B] [A' B']. apply (cut_len sep s); [assumption..|]. specialize (B _ _ A'). specialize (B' _ _ A). lia.
Qed.
Lemma last_unique sep s x y x' y' : last_cut sep s x y -> last_cut sep s x' y' -> x = x' /\ y = y'.
Proof.
  intros [A B] [A' B']. apply (cut_len sep s); [assumption..|]. specialize (B _ _ A'). specialize (B' _ _ A). lia.
Qed.
Lemma around_outside b body : outside b body (around b body).
Proof.
  unfold around. destruct (split_at _ body) as [[pro rest]|] eqn:E.
  - apply split_at_some in E. destruct (rsplit_at _ rest) as [[u v]|] eqn:E2.
    + apply rsplit_at_some in E2. eapply out_both; eassumption.
    + apply rsplit_at_absent in E2. rewrite app_nil_r. eapply out_open; eassumption.
  - apply split_at_absent in E. apply out_none, E.
Qed.
Lemma first_occurs sep s x y : first_cut sep s x y -> occurs sep s.
Proof. intros [-> _]. exists x, y. reflexivity. Qed.
Lemma last_occurs sep s x y : last_cut sep s x y -> occurs sep s.
Proof. intros [-> _]. exists x, y. reflexivity. Qed.
Lemma outside_unique b body t t' : outside b body t -> outside b body t' -> t = t'.
Proof.
  intros A B. inversion A as [N|pro rest F N|pro rest ins epi F C]; subst; inversion B as [N'|pro' rest' F' N'|pro' rest' ins' epi' F' C']; subst;
    try reflexivity; try (exfalso; eauto using first_occurs; fail);
    destruct (first_unique _ _ _ _ _ _ F F') as [-> ->]; try reflexivity; try (exfalso; eauto using last_occurs; fail).
  destruct (last_unique _ _ _ _ _ _ C C') as [-> ->]. reflexivity.
Qed.

Lemma attr_is (p : fpart) b :
  match fp_ct p with Some ct => ct_attribute (lit "boundary") ct | None => None end = Some b <-> boundary_is p b.
Proof.
  destruct p as [hs [ct|] bd e i j k]; cbn [fp_ct boundary_is]; [|split; [discriminate|contradiction]].
  unfold ct_attribute. destruct (ct_attrs ct) as [l|]; [|split; [discriminate|intros (? & ? & ? & X & _); discriminate]].
  split.
  - destruct (find _ l) as [[n v]|] eqn:E; [|discriminate]. intro H. injection H as <-.
    enough (exists before after, l = before ++ (lit "boundary", v) :: after /\ forall a, In a before -> fst a <> lit "boundary")
      as (x & y & -> & N) by (exists x, v, y; auto).
    induction l as [|[n' v'] l IH]; [discriminate|]. cbn [find fst] in E. destruct (teqb n' (lit "boundary")) eqn:T.
    + injection E as -> ->. apply teqb_spec in T. subst. exists [], l. split; [reflexivity|intros ? []].
    + destruct (IH E) as (x & y & -> & N). exists ((n', v') :: x), y. split; [reflexivity|].
      intros a [<-|I]; [apply teqb_false, T|apply N, I].
  - intros (x & v & y & E & -> & N). injection E as ->. induction x as [|[n' v'] x IH]; cbn [app find fst].
    + rewrite teqb_refl. reflexivity.
    + assert (T : teqb n' (lit "boundary") = false) by (apply teqb_false; apply (N (n', v')); left; reflexivity).
      rewrite T. apply IH. intros a I. apply N. right. exact I.
Qed.
Lemma is_xml_spec p : is_xml p = true <-> xml_type p.
Proof.
  destruct p as [hs [ct|] bd e i j k]; cbn [is_xml fp_ct xml_type]; unfold is_xml; cbn [fp_ct]; [|split; [discriminate|contradiction]].
  rewrite andb_true_iff, teqb_ic_spec. change (lower_text (lit "application")) with (lit "application").
  destruct (ct_subtype ct) as [st|].
  - rewrite tcontains_spec. split; [intros [A B]; split; [exact A|]; exists st; auto|intros [A (st' & X & B)]; injection X as <-; auto].
  - split; [intros [_ X]; discriminate|intros [_ (? & X & _)]; discriminate].
Qed.

Lemma body_text_searched h2t bt raw p t : body_text h2t bt raw p = Some t <-> searched h2t raw p bt t.
Proof.
  assert (RG : forall a b, decodes (get_range raw a b) (utf8_lossy (get_range raw a b))) by (intros; apply lossy_dec).
  assert (U : forall a b bs t', bytes_at raw a b bs -> decodes bs t' -> t' = utf8_lossy (get_range raw a b)).
  { intros a b bs t' A D. rewrite (bytes_at_unique _ _ _ _ _ A (get_range_at raw a b)) in D. exact (dec_unique _ _ _ D (RG a b)). }
  unfold body_text. split.
  - destruct bt as [| |types].
    + destruct (fp_body p) as [u|u|u|u|r u] eqn:B.
      1: destruct (fp_ob p) as [|o] eqn:O; [intro H; injection H as <-; apply se_raw_new; assumption|rewrite <- O].
      all: destruct (Nat.ltb (fp_ob p) (fp_oe p)) eqn:LT; [|discriminate]; intro H; injection H as <-; apply Nat.ltb_lt in LT;
           eapply se_raw; [intros (v & V); congruence|exact LT|apply get_range_at|apply RG].
    + destruct (fp_body p) as [u|u|u|u|r u] eqn:B; try discriminate.
      * intro H; injection H as <-. apply se_text, B.
      * intro H; injection H as <-. apply se_text_html, B.
      * destruct (is_xml p) eqn:X; [|discriminate]. intro H; injection H as <-. apply is_xml_spec in X.
        eapply se_text_xml; [exact B|exact X|apply from_utf8_reads].
    + destruct (fp_body p) as [u|u|u|u|r [|q u]] eqn:B; try discriminate.
      * intro H; injection H as <-. apply se_content; auto.
      * intro H; injection H as <-. apply se_content; auto.
      * intro H; injection H as <-. eapply se_content_bytes; [exact B|apply lossy_dec].
      * destruct (match fp_ct p with Some _ => _ | None => _ end) as [b|] eqn:A; intro H; injection H as <-.
        -- apply attr_is in A. eapply se_content_multi; [exact B|exact A|apply get_range_at|apply from_utf8_reads|apply around_outside].
        -- eapply se_content_unbounded; [exact B| |apply get_range_at|apply RG]. intros b Q. apply attr_is in Q. congruence.
      * intro H; injection H as <-. eapply se_content_message; [exact B|apply get_range_at|apply RG].
  - intro S. destruct S as [t B O|bs t N LT A D|t B|t B|bs t B X R|types t [B|B]|types bs t B D|types raw1 q ps bs t B A D
      |types subs b bs body t B Q A R O|types subs bs t B Q A D]; rewrite ?B.
    + rewrite O. reflexivity.
    + apply Nat.ltb_lt in LT. rewrite LT. rewrite (U _ _ _ _ A D).
      destruct (fp_body p) eqn:B; try reflexivity. destruct (fp_ob p) eqn:O; [|reflexivity].
      exfalso. apply N; [|reflexivity]. exists t0. reflexivity.
    + reflexivity.
    + reflexivity.
    + apply is_xml_spec in X. rewrite X. rewrite (reads_unique _ _ _ R (from_utf8_reads bs)). reflexivity.
    + reflexivity.
    + reflexivity.
    + rewrite (dec_unique _ _ _ D (lossy_dec bs)). reflexivity.
    + rewrite (U _ _ _ _ A D). reflexivity.
    + apply attr_is in Q. rewrite Q. rewrite (bytes_at_unique _ _ _ _ _ A (get_range_at raw _ _)) in R.
      rewrite (reads_unique _ _ _ R (from_utf8_reads _)) in O. rewrite (outside_unique _ _ _ _ O (around_outside b _)). reflexivity.
    + rewrite (U _ _ _ _ A D). destruct (match fp_ct p with Some _ => _ | None => _ end) as [b|] eqn:X; [|reflexivity].
      exfalso. apply attr_is in X. exact (Q b X).
Qed.
Lemma searched_unique h2t bt raw p t t' : searched h2t raw p bt t -> searched h2t raw p bt t' -> t = t'.
Proof. rewrite <- !body_text_searched. congruence. Qed.

(** *** The parts visited *)
Fixpoint on_stack (raw : list N) (parts : list fpart) (stack : list (list nat * option (list N * list fpart)))
         (x : list N * fpart) : Prop :=
  match stack with
  | [] => False
  | (i, None) :: s => (exists id, In id i /\ within raw parts id (fst x) (snd x)) \/ on_stack raw parts s x
  | (i, Some (r, ps)) :: s => (exists id, In id i /\ within r ps id (fst x) (snd x)) \/ on_stack r ps s x
  end.
Lemma fdeep_go_spec : forall f raw parts iter stack r, fdeep_go f raw parts iter stack = Some r ->
  forall x, In x r <-> (exists id, In id iter /\ within raw parts id (fst x) (snd x)) \/ on_stack raw parts stack x.
Proof.
  induction f as [|f IH]; intros raw parts iter stack r H x; [discriminate|]. cbn [fdeep_go] in H.
  destruct iter as [|id iter].
  - destruct stack as [|[i [[r1 ps]|]] s].
    + injection H as <-. split; [intros []|intros [(? & [] & _)|[]]].
    + rewrite (IH _ _ _ _ _ H x). cbn [on_stack]. split; [auto|intros [(? & [] & _)|X]; exact X].
    + rewrite (IH _ _ _ _ _ H x). cbn [on_stack]. split; [auto|intros [(? & [] & _)|X]; exact X].
  - destruct (nth_error parts id) as [p|] eqn:E.
    2: { rewrite (IH _ _ _ _ _ H x). split.
         - intros [(j & I & W)|X]; [left; exists j; split; [right; exact I|exact W]|right; exact X].
         - intros [(j & [<-|I] & W)|X]; [|left; exists j; auto|right; exact X].
           exfalso. inversion W; congruence. }
    assert (SELF : within raw parts id raw p) by (apply wi_self, E).
    destruct (fp_body p) as [u|u|u|subs|raw1 ps] eqn:B;
      (match type of H with option_map _ ?y = _ => destruct y as [q|] eqn:G; [|discriminate] end); injection H as <-;
      specialize (IH _ _ _ _ _ G x); cbn [In on_stack] in *; rewrite IH; clear IH.
    1-3: split;
         [intros [<-|[(j & I & W)|X]]; [left; exists id; auto|left; exists j; auto|right; exact X]
         |intros [(j & [<-|I] & W)|X];
            [left; inversion W; subst; try congruence; destruct x; cbn [fst snd] in *; congruence
            |right; left; exists j; auto|right; right; exact X]].
    + split.
      * intros [<-|[(j & I & W)|[(j & I & W)|X]]]; [left; exists id; auto| |left; exists j; auto|right; exact X].
        left. exists id. split; [left; reflexivity|]. eapply wi_sub; eassumption.
      * intros [(j & [<-|I] & W)|X]; [|right; right; left; exists j; auto|right; right; right; exact X].
        inversion W as [i p' E'|i p' subs' j raw' q' E' B' I' W'|i p' raw2 ps' raw' q' E' B' W']; subst.
        -- left. destruct x; cbn [fst snd] in *; congruence.
        -- right. left. exists j. split; [|exact W']. congruence.
        -- congruence.
    + split.
      * intros [<-|[(j & [<-|[]] & W)|[(j & I & W)|X]]]; [left; exists id; auto| |left; exists j; auto|right; exact X].
        left. exists id. split; [left; reflexivity|]. eapply wi_nested; eassumption.
      * intros [(j & [<-|I] & W)|X]; [|right; right; left; exists j; auto|right; right; right; exact X].
        inversion W as [i p' E'|i p' subs' j raw' q' E' B' I' W'|i p' raw2 ps' raw' q' E' B' W']; subst.
        -- left. destruct x; cbn [fst snd] in *; congruence.
        -- congruence.
        -- right. left. exists 0. split; [auto|]. rewrite E in E'. injection E' as <-. rewrite B in B'. injection B' as <- <-. exact W'.
Qed.

(** The same parts as without the bytes. *)
Lemma p_body_view p : p_body (view p) = match fp_body p with
  | FText t => BText t | FHtml t => BHtml t | FBinary t => BBinary t | FMulti l => BMulti l
  | FMessage _ ps => BMessage (map view ps) end.
Proof. destruct p as [hs ct [] e i j k]; reflexivity. Qed.
Definition vstack (s : list (list nat * option (list N * list fpart))) :=
  map (fun x : list nat * option (list N * list fpart) => (fst x, option_map (fun y => map view (snd y)) (snd x))) s.
Lemma fdeep_go_view : forall f raw parts iter stack,
  option_map (map (fun rp => view (snd rp))) (fdeep_go f raw parts iter stack) = deep_go f (map view parts) iter (vstack stack).
Proof.
  induction f as [|f IH]; intros; [reflexivity|]. cbn [fdeep_go deep_go]. destruct iter as [|id iter].
  - destruct stack as [|[i [[r ps]|]] s]; [reflexivity|exact (IH _ _ _ _)|exact (IH _ _ _ _)].
  - rewrite nth_error_map. destruct (nth_error parts id) as [p|]; cbn [option_map]; [|apply IH].
    rewrite p_body_view. destruct (fp_body p) as [u|u|u|subs|raw1 ps].
    1-3: rewrite <- (IH raw); destruct (fdeep_go f raw parts iter stack); reflexivity.
    + specialize (IH raw parts subs ((iter, None) :: stack)). unfold vstack in IH. cbn [map fst snd option_map] in IH.
      unfold vstack. rewrite <- IH. destruct (fdeep_go f raw parts subs _); reflexivity.
    + specialize (IH raw1 ps [0] ((iter, Some (raw, parts)) :: stack)). unfold vstack in IH. cbn [map fst snd option_map] in IH.
      unfold vstack. rewrite <- IH. destruct (fdeep_go f raw1 ps [0] _); reflexivity.
Qed.
Lemma fdeep_view raw parts current :
  option_map (map (fun rp => view (snd rp))) (fdeep raw parts current) = deep_parts (map view parts) current.
Proof. unfold fdeep, deep_parts. apply (fdeep_go_view _ raw parts [current] []). Qed.
Lemma fdeep_exact raw parts current : wf_deep (map view parts) ->
  exists l, fdeep raw parts current = Some l /\ forall r p, In (r, p) l <-> within raw parts current r p.
Proof.
  intro W. destruct (deep_parts_exact _ current W) as (ll & E & _). rewrite <- (fdeep_view raw) in E.
  destruct (fdeep raw parts current) as [l|] eqn:F; [|discriminate]. exists l. split; [reflexivity|].
  intros r p. rewrite (fdeep_go_spec _ _ _ _ _ _ F (r, p)). cbn [on_stack fst snd]. split.
  - intros [(id & [<-|[]] & X)|[]]. exact X.
  - intro X. left. exists current. split; [left; reflexivity|exact X].
Qed.

(** *** The types asked for *)
Lemma type_of_view p : exists ty sub, part_type (view p) = (ty, sub) /\ type_of p ty sub /\
  forall ty' sub', type_of p ty' sub' -> ty' = ty /\ sub' = sub.
Proof.
  destruct p as [hs [ct|] b e i j k]; cbn [view part_type p_ct type_of].
  - destruct (ct_subtype ct) as [st|]; do 2 eexists; (split; [reflexivity|]); split; eauto.
    + intros ty' sub' [<- [(x & X & <-)|[X _]]]; [injection X as <-; auto|discriminate].
    + intros ty' sub' [<- [(x & X & <-)|[_ ->]]]; [discriminate|auto].
  - destruct b; cbn [p_body]; do 2 eexists; (split; [reflexivity|]); split; auto; intros ? ? [-> ->]; auto.
Qed.
Lemma passes_chosen flt p : passes flt (view p) = true <-> chosen flt p.
Proof.
  destruct (type_of_view p) as (ty & sub & E & T & U). unfold passes, chosen. rewrite E. cbn [fst snd].
  destruct flt as [|f0 l]; [split; auto|]. rewrite existsb_exists. split.
  - intros ([t|t u] & I & H); right; exists ty, sub; (split; [exact T|]).
    + left. exists t. rewrite <- teqb_ic_spec. auto.
    + right. apply andb_true_iff in H as [H1 H2]. exists t, u. rewrite <- !teqb_ic_spec. auto.
  - intros [X|(ty' & sub' & T' & H)]; [discriminate|]. apply U in T' as [-> ->].
    destruct H as [(t & I & H)|(t & u & I & H1 & H2)].
    + exists (CtType t). rewrite teqb_ic_spec. auto.
    + exists (CtTypeSubtype t u). rewrite andb_true_iff, !teqb_ic_spec. auto.
Qed.
Lemma split_slash_word t : ~ In 47%N t -> split_slash t = [t].
Proof.
  induction t as [|c t IH]; intro H; [reflexivity|]. cbn [split_slash].
  destruct (N.eqb c 47) eqn:E; [apply N.eqb_eq in E; subst; exfalso; apply H; left; reflexivity|].
  rewrite IH; [reflexivity|]. intro I. apply H. right. exact I.
Qed.
Lemma split_slash_two t u : ~ In 47%N t -> split_slash (t ++ 47%N :: u) = t :: split_slash u.
Proof.
  induction t as [|c t IH]; intro H; [reflexivity|]. cbn [app split_slash].
  destruct (N.eqb c 47) eqn:E; [apply N.eqb_eq in E; subst; exfalso; apply H; left; reflexivity|].
  rewrite IH; [reflexivity|]. intro I. apply H. right. exact I.
Qed.
Lemma split_slash_inv : forall s, exists w ws, split_slash s = w :: ws /\ ~ In 47%N w /\
  (ws = [] -> s = w) /\ (ws <> [] -> exists r, s = w ++ 47%N :: r /\ split_slash r = ws).
Proof.
  induction s as [|c s IH].
  - exists [], []. repeat split; auto. intros []. reflexivity.
  - cbn [split_slash]. destruct (N.eqb c 47) eqn:E.
    + apply N.eqb_eq in E. subst c. destruct IH as (w & ws & Ew & _). exists [], (split_slash s). rewrite Ew.
      repeat split; auto; try discriminate. intros _. exists s. auto.
    + destruct IH as (w & ws & Ew & N1 & N2 & N3). rewrite Ew. exists (c :: w), ws. split; [reflexivity|]. split; [|split].
      * intros [->|I]; [discriminate|tauto].
      * intro W. rewrite (N2 W). reflexivity.
      * intro W. destruct (N3 W) as (r & -> & R). exists r. auto.
Qed.
Lemma filter_written s f : ctfilter_parse s = Some f <-> written_type s f.
Proof.
  unfold ctfilter_parse. split.
  - destruct (split_slash_inv s) as (w & ws & E & N1 & N2 & N3). rewrite E. destruct ws as [|u [|v vs]].
    + rewrite (N2 eq_refl). destruct w as [|c w]; [discriminate|]. intro H. injection H as <-. split; [reflexivity|].
      split; [discriminate|]. exact N1.
    + destruct (N3 ltac:(discriminate)) as (r & -> & R).
      destruct (split_slash_inv r) as (w' & ws' & E' & M1 & M2 & M3). rewrite E' in R. injection R as -> ->.
      rewrite (M2 eq_refl). destruct w as [|c w]; [destruct u; discriminate|]. destruct u as [|d u]; [discriminate|].
      intro H. injection H as <-. repeat split; auto; discriminate.
    + destruct w, u; discriminate.
  - destruct f as [t|t u]; cbn [written_type].
    + intros (-> & H & N). rewrite split_slash_word by exact N. destruct t; [congruence|reflexivity].
    + intros (-> & H1 & H2 & N1 & N2). rewrite split_slash_two, split_slash_word by assumption.
      destruct t; [congruence|]. destruct u; [congruence|]. reflexivity.
Qed.

(** *** Prologue and epilogue *)
Lemma app_split_le {A} (a b c d : list A) : a ++ b = c ++ d -> length c <= length a -> exists m, a = c ++ m /\ d = m ++ b.
Proof.
  revert c. induction a as [|x a IH]; intros [|y c] E H; cbn [length] in H; try lia.
  - exists []. auto.
  - exists (x :: a). auto.
  - injection E as <- E. destruct (IH c E) as (m & -> & ->); [lia|]. exists m. auto.
Qed.
Definition dashes : text := 10%N :: lit "--".
(** A delimiter that starts inside [pro], followed by a delimiter, is a line of [pro] with hyphens. *)
Lemma early (pro x y z : text) : pro ++ dashes ++ z = x ++ dashes ++ y -> length x < length pro -> occurs dashes pro.
Proof.
  intros E H. destruct (app_split_le _ _ _ _ E) as (m & -> & Em); [lia|].
  change dashes with [10;45;45]%N in Em. destruct m as [|a [|b [|c m]]]; cbn [app] in Em; try discriminate.
  - exfalso. rewrite app_nil_r in H. lia.
  - injection Em as <- <- <- ->. exists x, m. reflexivity.
Qed.
Lemma outside_well b pro mid epi : ~ In 10%N b -> ~ occurs dashes pro -> ~ occurs dashes epi ->
  outside b (pro ++ delimiter b ++ mid ++ delimiter b ++ lit "--" ++ epi) (pro ++ epi).
Proof.
  intros NB NP NE. eapply (out_both b _ pro (mid ++ delimiter b ++ lit "--" ++ epi) mid epi).
  - split; [reflexivity|]. intros x y E. destruct (le_lt_dec (length pro) (length x)) as [H|H]; [exact H|exfalso].
    apply NP. unfold delimiter in E. fold dashes in E. rewrite <- !app_assoc in E. eapply early; [exact E|exact H].
  - split; [rewrite <- app_assoc; reflexivity|]. intros x y E.
    destruct (le_lt_dec (length x) (length mid)) as [H|H]; [exact H|exfalso].
    symmetry in E. destruct (app_split_le _ _ _ _ E) as (m & -> & Em); [lia|]. rewrite app_length in H.
    assert (H' : 0 < length m) by lia. clear H E.
    assert (E : m ++ dashes ++ b ++ lit "--" ++ y = (dashes ++ b ++ lit "--") ++ epi).
    { rewrite <- !app_assoc. unfold delimiter in Em. fold dashes in Em. rewrite <- !app_assoc in Em. symmetry. exact Em. }
    clear Em. destruct (le_lt_dec (length (dashes ++ b ++ lit "--")) (length m)) as [G|G].
    + destruct (app_split_le _ _ _ _ E G) as (w & -> & Ew). apply NE. exists w, (b ++ lit "--" ++ y). exact Ew.
    + symmetry in E. destruct (app_split_le _ _ _ _ E) as (w & Ew & Ed); [lia|].
      assert (J : In 10%N w).
      { destruct w as [|q w]; [rewrite app_nil_r in Ew; rewrite Ew in G; lia|]. injection Ed as <- _. left. reflexivity. }
      destruct m as [|a m]; [cbn in H'; lia|]. change (10%N :: lit "--" ++ b ++ lit "--" = a :: (m ++ w)) in Ew.
      assert (Ew' : lit "--" ++ b ++ lit "--" = m ++ w) by congruence. assert (K : In 10%N (lit "--" ++ b ++ lit "--")).
      { rewrite Ew'. apply in_or_app. right. exact J. }
      apply in_app_or in K as [K|K]; [cbn in K; intuition discriminate|].
      assert (H := K).
      apply in_app_or in H as [H|H]; [tauto|]. cbn in H. intuition discriminate.
Qed.

Section T.
  Variable L : rustlib.
  Variable rx : text -> text -> option (list (option text)).
  Variable h2t : text -> text.
  Hypothesis low1 : forall c, chr_lower L c <> [].
  Lemma body_full_exact raw parts current flt bt c m is_not ks :
    wf_deep (map view parts) -> single_value_match m ->
    exists b, body_test_full L rx h2t raw parts current flt bt c m is_not ks = Some (TBool (xorb b is_not) []) /\
      (b = true <-> exists raw' p t k, within raw parts current raw' p /\ chosen flt p /\
         searched h2t raw' p bt t /\ In k ks /\ key_matches L rx c (plain_mtype m) (KStr t) (KVar k)).
  Proof.
    intros WF SV. destruct (fdeep_exact raw parts current WF) as (l & E & F).
    unfold body_test_full. rewrite E. cbn [option_map].
    destruct (values_loop_spec L rx low1 c (plain_mtype m) ks) with
      (vs := flat_map (fun rp : list N * fpart => match body_text h2t bt (fst rp) (snd rp) with Some t => [t] | None => [] end)
               (filter (fun rp => passes flt (view (snd rp))) l))
      (caps := @nil (nat * text)) as (b & x & EV & HV).
    { intros k _. destruct m; simpl; auto. }
    exists b. split.
    - destruct m; try contradiction; cbn [plain_mtype] in EV; rewrite EV; reflexivity.
    - rewrite HV. split.
      + intros (v & k & I & J & K). apply in_flat_map in I as ([r p] & I & IV). apply filter_In in I as [I P].
        cbn [fst snd] in *. destruct (body_text h2t bt r p) as [t|] eqn:BT; [|contradiction]. destruct IV as [->|[]].
        exists r, p, v, k. rewrite <- F, <- body_text_searched, <- passes_chosen. auto 6.
      + intros (r & p & t & k & A & P & B & J & K). exists t, k. split; [|auto].
        apply in_flat_map. exists (r, p). cbn [fst snd]. apply body_text_searched in B. rewrite B. split; [|left; reflexivity].
        apply filter_In. split; [apply F, A|apply passes_chosen, P].
  Qed.
  (** The test of a run, its transform being this one. *)
  Lemma body_full_view raw parts current flt bt o c m is_not ks :
    (forall r p, within raw parts current r p -> o (view p) = body_text h2t bt r p) ->
    wf_deep (map view parts) ->
    body_test L rx (map view parts) current flt o c m is_not ks =
    body_test_full L rx h2t raw parts current flt bt c m is_not ks.
  Proof.
    intros H W. destruct (fdeep_exact raw parts current W) as (l & E & F).
    unfold body_test, body_test_full. rewrite <- (fdeep_view raw), E. cbn [option_map]. f_equal.
    assert (X : forall l', (forall x, In x l' -> In x l) ->
      flat_map (fun p => match o p with Some t => [t] | None => [] end) (filter (passes flt) (map (fun rp => view (snd rp)) l')) =
      flat_map (fun rp : list N * fpart => match body_text h2t bt (fst rp) (snd rp) with Some t => [t] | None => [] end)
               (filter (fun rp => passes flt (view (snd rp))) l') /\
      length (filter (passes flt) (map (fun rp => view (snd rp)) l')) = length (filter (fun rp => passes flt (view (snd rp))) l')).
    { induction l' as [|[r p] l' IH]; intro S; [auto|]. destruct (IH (fun x I => S x (or_intror I))) as [A B].
      cbn [map filter snd]. destruct (passes flt (view p)); [|auto]. cbn [flat_map length fst snd].
      rewrite A, B, (H r p); [auto|]. apply F, S. left. reflexivity. }
    destruct (X l (fun x I => I)) as [A B]. destruct m; rewrite ?A, ?B; reflexivity.
  Qed.
End T.
