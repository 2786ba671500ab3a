(** Nesting limits. *)
From Coq Require Import Lia.
From Verif Require Import Base Lib Address Var Value Flags Comparator Message EditHeader Expr Event
  Notify Vacation Mime Sieve Run RunSpec Compile CompileSpec CompileProofs1 CompileProofs8.

Section Limits.
  Variable umax : nat.
  Variable lim : limits.

  Definition goes (r : list token) (stk : list tblock) (c : list instruction) (r' : list token) : Prop :=
    exists f code b n, t_p b = 0 /\ parse_test umax lim f r code b stk n = POk c r'.

  Lemma leaf_goes (i : instruction) f r code b stk n' c r' : t_p b = 0 ->
    match closings (t_p b) r with
    | None => PErr
    | Some r'' => match stk with
       | [] => POk ((code ++ [i]) ++ [IxJz umax]) r''
       | _ => parse_test umax lim f r'' (code ++ [i]) {| t_all := t_all b; t_not := t_not b; t_p := 0; t_jmps := t_jmps b |} stk n'
       end
    end = POk c r' -> (stk = [] -> r' = r) /\ (stk <> [] -> goes r stk c r').
  Proof.
    intros -> H. cbn [closings] in H. destruct stk; [injection H as <- <-|]; split; try congruence; auto.
    intros _. unfold goes. repeat eexists; [|exact H]. reflexivity.
  Qed.

  Lemma tree_limit :
    (forall t r stk c r', goes (rtree t ++ r) stk c r' -> length stk <= l_tests lim ->
      tdepth t + length stk <= l_tests lim /\ (stk = [] -> r' = r) /\ (stk <> [] -> goes r stk c r')) /\
    (forall ts r stk c r', goes (rtrees ts ++ r) stk c r' -> stk <> [] -> length stk <= l_tests lim ->
      tdepths ts + length stk <= l_tests lim /\ goes r stk c r').
  Proof.
    assert (Group : forall (tok : token) ts r stk c r',
      (tok = KAnyOf \/ tok = KAllOf) ->
      (forall r stk c r', goes (rtrees ts ++ r) stk c r' -> stk <> [] -> length stk <= l_tests lim ->
        tdepths ts + length stk <= l_tests lim /\ goes r stk c r') ->
      goes ((tok :: KPOpen :: rtrees ts ++ [KPClose]) ++ r) stk c r' ->
      S (tdepths ts) + length stk <= l_tests lim /\ (stk = [] -> r' = r) /\ (stk <> [] -> goes r stk c r')).
    { intros tok ts r stk c r' Tk IH (f & code & b & n & P & H). destruct f as [|f]; [discriminate|].
      cbn [app] in H. rewrite <- app_assoc in H. cbn [app] in H.
      assert (X : Nat.ltb (length stk) (l_tests lim) = true /\ exists b2, t_p b2 = 0 /\ parse_test umax lim f (rtrees ts ++ KPClose :: r) code b2 (b :: stk) n = POk c r').
      { destruct Tk; subst tok; cbn [parse_test] in H; destruct (Nat.ltb (length stk) (l_tests lim)); try discriminate;
          (split; [reflexivity|]); eexists; (split; [|exact H]); reflexivity. }
      destruct X as (L & b2 & P2 & H2). apply Nat.ltb_lt in L.
      destruct (IH (KPClose :: r) (b :: stk) c r') as [D (f3 & code3 & b3 & n3 & P3 & H3)]; [|discriminate|cbn; lia|].
      { exists f, code, b2, n. auto. }
      cbn [length] in D. split; [lia|]. destruct f3 as [|f3]; [discriminate|]. cbn [parse_test] in H3. rewrite P3 in H3.
      destruct stk as [|p2 stk].
      - injection H3 as <- <-. split; congruence.
      - split; [congruence|]. intros _. unfold goes. exists f3. eexists. exists b. eexists. split; [exact P|exact H3]. }
    apply tree_ind2; cbn [rtree rtrees tdepth tdepths].
    - intros b r stk c r' (f & code & b0 & n & P & H) L. destruct f as [|f]; [discriminate|]. split; [exact L|].
      destruct b; cbn [app parse_test] in H; eapply leaf_goes; eauto.
    - intros i r stk c r' (f & code & b0 & n & P & H) L. destruct f as [|f]; [discriminate|]. split; [exact L|].
      cbn [app parse_test] in H; eapply leaf_goes; eauto.
    - intros t IH r stk c r' (f & code & b0 & n & P & H) L. destruct f as [|f]; [discriminate|].
      cbn [app parse_test] in H. destruct (peek_word _); [|discriminate]. apply IH; [|exact L]. repeat eexists; eauto.
    - intros ts IH r stk c r' H L. exact (Group KAnyOf ts r stk c r' (or_introl eq_refl) IH H).
    - intros ts IH r stk c r' H L. exact (Group KAllOf ts r stk c r' (or_intror eq_refl) IH H).
    - intros t IH r stk c r' H N L. destruct (IH r stk c r' H L) as (A & _ & B). auto.
    - intros t IH ts IHs r stk c r' H N L. rewrite <- app_assoc in H. cbn [app] in H.
      destruct (IH (KComma :: rtrees ts ++ r) stk c r' H L) as (A & _ & B). specialize (B N).
      destruct B as (f & code & b & n & P & B). destruct f as [|f]; [discriminate|]. cbn [parse_test] in B.
      destruct stk as [|b2 stk]; [congruence|]. destruct (_ && _); [|discriminate].
      destruct (IHs r (b2 :: stk) c r') as [A2 B2]; auto.
      { unfold goes. exists f. eexists. eexists. exists (t_not b). split; [|exact B]. exact P. }
      split; [lia|exact B2].
  Qed.

  (** *** Blocks *)
  Definition reads (r : list token) (d : nat) (s' : cst) : Prop :=
    exists f s, go umax lim f r s = COk s' /\ length (c_stack s) = d.

  Lemma open_depth t l s s' : open lim t l s = Some s' -> length (c_stack s') = S (length (c_stack s)) /\ length (c_stack s) < l_blocks lim.
  Proof. unfold open. destruct (Nat.ltb _ _) eqn:L; [|discriminate]. injection 1 as <-. cbn. split; [reflexivity|]. now apply Nat.ltb_lt. Qed.
  Lemma close_depth c r s s' : close umax c r s = Some s' -> S (length (c_stack s')) = length (c_stack s).
  Proof.
    unfold close. destruct (c_stack s) as [|p stk]; [discriminate|]. intros H.
    destruct (b_type (c_blk s)); try (injection H as <-; reflexivity).
    - destruct r as [|[] r]; injection H as <-; reflexivity.
    - destruct r as [|[] r]; injection H as <-; reflexivity.
  Qed.
  Lemma find_label_length n pos : forall l pops r bs, find_label n pops pos l = Some (r, bs) -> length bs = length l.
  Proof.
    induction l as [|b l IH]; intros pops r bs H; [discriminate|]. cbn [find_label] in H.
    destruct (is_for b); [destruct (label_eqb _ _)|]; [injection H as <- <-; reflexivity| |];
      (destruct (find_label n _ pos l) as [[r1 bs1]|] eqn:E; [|discriminate]; injection H as <- <-; cbn; f_equal; eapply IH; eauto).
  Qed.
  Lemma find_loop_length pos : forall l f bs, find_loop pos l = Some (f, bs) -> length bs = length l.
  Proof.
    induction l as [|b l IH]; intros f bs H; [discriminate|]. cbn [find_loop] in H.
    destruct (is_loop b); [injection H as <- <-; reflexivity|].
    destruct (find_loop pos l) as [[r1 bs1]|] eqn:E; [|discriminate]; injection H as <- <-; cbn; f_equal; eapply IH; eauto.
  Qed.
  Lemma break_depth l s s' : do_break umax l s = Some s' -> length (c_stack s') = length (c_stack s).
  Proof.
    unfold do_break. destruct l as [n|].
    - destruct (find_label _ _ _ _) as [[p bs]|] eqn:E; [|discriminate]. injection 1 as <-. apply find_label_length in E.
      destruct bs as [|b bs]; [discriminate|]. cbn in *. congruence.
    - destruct (find_loop _ _) as [[p bs]|] eqn:E; [|discriminate]. injection 1 as <-. apply find_loop_length in E.
      destruct bs as [|b bs]; [discriminate|]. cbn in *. congruence.
  Qed.

  (** One command that is a single token. *)
  Lemma one_token t r d s' : reads (t :: r) d s' ->
    (forall s r1 s1, command umax lim t r s = Some (r1, s1) -> r1 = r /\ length (c_stack s1) = length (c_stack s)) -> reads r d s'.
  Proof.
    intros (f & s & H & D) C. destruct f as [|f]; [discriminate|]. cbn [go] in H.
    destruct (command umax lim t r s) as [[r1 s1]|] eqn:E; [|discriminate]. destruct (C _ _ _ E) as [-> Q]. exists f, s1. split; [exact H|congruence].
  Qed.
  Lemma closing c r d s' : reads (KClose c :: r) (S d) s' -> reads r d s'.
  Proof.
    intros (f & s & H & D). destruct f as [|f]; [discriminate|]. cbn [go command] in H.
    destruct (close umax c r s) as [s1|] eqn:E; [|discriminate]. exists f, s1. split; [exact H|]. apply close_depth in E. lia.
  Qed.
  Lemma testing tok ty t r d s' : tok = KIf /\ ty = BIf \/ tok = KElsIf /\ ty = BElsIf ->
    reads (tok :: rtree t ++ KOpen :: r) d s' -> tdepth t <= l_tests lim /\ d < l_blocks lim /\ reads r (S d) s'.
  Proof.
    intros Tk (f & s & H & D). destruct f as [|f]; [discriminate|].
    assert (X : exists s1, go umax lim (S f) (tok :: rtree t ++ KOpen :: r) s =
        match test_then umax lim ty (rtree t ++ KOpen :: r) s1 with Some (r2, s2) => go umax lim f r2 s2 | None => CErr end
        /\ length (c_stack s1) = d).
    { destruct Tk as [[-> ->]|[-> ->]]; cbn [go command].
      - eexists. split; [reflexivity|]. exact D.
      - destruct (c_last s) eqn:Cl; try (exists s; split; [reflexivity|exact D]); exfalso; cbn [go command] in H; rewrite Cl in H; discriminate. }
    destruct X as (s1 & Q & D1). rewrite Q in H. clear Q. unfold test_then in H.
    destruct (parse_test _ _ _ _ _ _ _ _) as [| |code r1] eqn:P; try discriminate.
    destruct (proj1 tree_limit t (KOpen :: r) [] code r1) as (A & B & _); [repeat eexists; [|exact P]; reflexivity|cbn; lia|].
    rewrite (B eq_refl) in H. destruct (open lim ty None (with_code code s1)) as [s2|] eqn:O; [|discriminate]. cbn [option_map] in H.
    apply open_depth in O as [O1 O2]. cbn in O1, O2, A. rewrite Nat.add_0_r in A. split; [exact A|]. split; [lia|].
    exists f, s2. split; [exact H|]. congruence.
  Qed.
  Lemma opening tok r d s' : match tok with KForEvery _ | KWhile _ | KElse => True | _ => False end ->
    reads (tok :: KOpen :: r) d s' -> d < l_blocks lim /\ reads r (S d) s'.
  Proof.
    intros Tk (f & s & H & D). destruct f as [|f]; [discriminate|]. cbn [go] in H.
    assert (X : exists ty l s1 s2, open lim ty l s1 = Some s2 /\ c_stack s1 = c_stack s /\ go umax lim f r s2 = COk s').
    { destruct tok; try contradiction; cbn [command] in H.
      - destruct (c_last s); try discriminate; (destruct (open lim BElse None s) as [s2|] eqn:O; [|discriminate]); exists BElse, None, s, s2; auto.
      - destruct (Nat.eqb _ _); [discriminate|].
        match type of H with match (if ?x then _ else _) with _ => _ end = _ => destruct x; [discriminate|] end.
        destruct (open _ _ _ _) as [s2|] eqn:O; [|discriminate]. eexists _, _, _, s2. split; [exact O|]. auto.
      - destruct (open _ _ _ _) as [s2|] eqn:O; [|discriminate]. eexists _, _, _, s2. split; [exact O|]. auto. }
    destruct X as (ty & l & s1 & s2 & O & Q & G). apply open_depth in O as [O1 O2]. rewrite Q in *. split; [lia|].
    exists f, s2. split; [exact G|]. congruence.
  Qed.

  Lemma limits_respected :
    (forall c r d s', reads (rcmd c ++ r) d s' -> d <= l_blocks lim ->
      (bdepth c + d <= l_blocks lim /\ test_depth c <= l_tests lim) /\ reads r d s') /\
    (forall cs r d s', reads (rcmds cs ++ r) d s' -> d <= l_blocks lim ->
      (bdepths cs + d <= l_blocks lim /\ test_depths cs <= l_tests lim) /\ reads r d s') /\
    (forall rs r d s', reads (rrest rs ++ r) d s' -> d <= l_blocks lim ->
      (bdepth_rest rs + d <= l_blocks lim /\ test_depth_rest rs <= l_tests lim) /\ reads r d s').
  Proof.
    assert (Plain : forall t r d s', reads (t :: r) d s' -> d <= l_blocks lim ->
      (forall s r1 s1, command umax lim t r s = Some (r1, s1) -> r1 = r /\ length (c_stack s1) = length (c_stack s)) ->
      (0 + d <= l_blocks lim /\ 0 <= l_tests lim) /\ reads r d s').
    { intros t r d s' H L C. split; [lia|]. eapply one_token; eauto. }
    apply cmd_ind3; cbn [rcmd rcmds rrest bdepth bdepths bdepth_rest test_depth test_depths test_depth_rest app].
    - intros i r d s' H L. apply (Plain _ _ _ _ H L). cbn [command]. injection 1 as <- <-. auto.
    - intros r d s' H L. apply (Plain _ _ _ _ H L). cbn [command]. injection 1 as <- <-. auto.
    - intros t v r d s' H L. apply (Plain _ _ _ _ H L). cbn [command]. injection 1 as <- <-. auto.
    - intros t b IHb k rs IHr r d s' H L. rewrite <- app_assoc in H. cbn [app] in H. rewrite <- app_assoc in H. cbn [app] in H.
      destruct (testing KIf BIf _ _ _ _ (or_introl (conj eq_refl eq_refl)) H) as (A & B & H1).
      destruct (IHb _ _ _ H1 ltac:(lia)) as ((C1 & C2) & H2). apply closing in H2. destruct (IHr _ _ _ H2 L) as ((D1 & D2) & H3).
      split; [lia|exact H3].
    - intros l b IHb k r d s' H L. rewrite <- app_assoc in H. cbn [app] in H.
      destruct (opening (KForEvery l) _ _ _ Logic.I H) as (B & H1).
      destruct (IHb _ _ _ H1 ltac:(lia)) as ((C1 & C2) & H2). apply closing in H2. split; [lia|exact H2].
    - intros e b IHb k r d s' H L. rewrite <- app_assoc in H. cbn [app] in H.
      destruct (opening (KWhile e) _ _ _ Logic.I H) as (B & H1).
      destruct (IHb _ _ _ H1 ltac:(lia)) as ((C1 & C2) & H2). apply closing in H2. split; [lia|exact H2].
    - intros l r d s' H L. apply (Plain _ _ _ _ H L). cbn [command]. intros s r1 s1 X. destruct (do_break umax l s) eqn:E; [|discriminate].
      injection X as <- <-. split; [reflexivity|]. eapply break_depth; eauto.
    - intros r d s' H L. apply (Plain _ _ _ _ H L). cbn [command]. intros s r1 s1 X.
      destruct (do_continue 0 (blocks s)) as [m is]. destruct m as [|[|[|m]]]; try discriminate. injection X as <- <-. auto.
    - intros r d s' H L. apply (Plain _ _ _ _ H L). cbn [command]. injection 1 as <- <-. auto.
    - intros r d s' H L. split; [lia|exact H].
    - intros c IHc cs IHs r d s' H L. rewrite <- app_assoc in H. destruct (IHc _ _ _ H L) as ((A1 & A2) & H1).
      destruct (IHs _ _ _ H1 L) as ((B1 & B2) & H2). split; [lia|exact H2].
    - intros r d s' H L. split; [lia|exact H].
    - intros b IHb k r d s' H L. rewrite <- app_assoc in H. cbn [app] in H.
      destruct (opening KElse _ _ _ Logic.I H) as (B & H1).
      destruct (IHb _ _ _ H1 ltac:(lia)) as ((C1 & C2) & H2). apply closing in H2. split; [lia|exact H2].
    - intros t b IHb k rs IHr r d s' H L. rewrite <- app_assoc in H. cbn [app] in H. rewrite <- app_assoc in H. cbn [app] in H.
      destruct (testing KElsIf BElsIf _ _ _ _ (or_intror (conj eq_refl eq_refl)) H) as (A & B & H1).
      destruct (IHb _ _ _ H1 ltac:(lia)) as ((C1 & C2) & H2). apply closing in H2. destruct (IHr _ _ _ H2 L) as ((D1 & D2) & H3).
      split; [lia|exact H3].
  Qed.

  Theorem depth_limits p code : compile umax lim (rprog p) = Some code ->
    bdepths (p_cmds p) <= l_blocks lim /\ test_depths (p_cmds p) <= l_tests lim.
  Proof.
    unfold compile, rprog. intros H. destruct (go _ _ _ _ _) as [| |s] eqn:G; try discriminate.
    assert (R : reads (rcmds (p_cmds p) ++ []) 0 s).
    { rewrite app_nil_r. eapply one_token; [exists (length (KRequire (p_require p) :: rcmds (p_cmds p))), start; split; [exact G|reflexivity]|].
      intros s0 r1 s1 X. cbn [command] in X. injection X as <- <-. split; [reflexivity|]. unfold do_require.
      destruct (p_require p); [reflexivity|]. destruct (b_require (c_blk s0)); reflexivity. }
    destruct (proj1 (proj2 limits_respected) _ _ _ _ R ltac:(lia)) as ((A & B) & _). lia.
  Qed.

  (** *** Includes *)
  Definition incs (r : list token) : nat := length (filter is_include_token r).
  Definition test_token (t : token) : bool :=
    match t with KNot | KAnyOf | KAllOf | KTrue | KFalse | KLeaf _ | KComma | KPOpen | KPClose => true | _ => false end.
  Definition past (r r' : list token) : Prop := exists pre, r = pre ++ r' /\ forallb test_token pre = true.
  Lemma past_refl r : past r r.
  Proof. exists []. auto. Qed.
  Lemma past_cons t r r' : test_token t = true -> past r r' -> past (t :: r) r'.
  Proof. intros T (pre & -> & H). exists (t :: pre). cbn. rewrite T. auto. Qed.
  Lemma past_trans r1 r2 r3 : past r1 r2 -> past r2 r3 -> past r1 r3.
  Proof. intros (p1 & -> & H1) (p2 & -> & H2). exists (p1 ++ p2). rewrite app_assoc, forallb_app, H1, H2. auto. Qed.
  Lemma closings_past : forall n r r', closings n r = Some r' -> past r r'.
  Proof.
    induction n as [|n IH]; intros r r' H; [injection H as <-; apply past_refl|]. destruct r as [|[] r]; try discriminate.
    cbn [closings] in H. apply IH in H. now apply past_cons.
  Qed.
  Lemma parse_past : forall f r code b stk n c r', parse_test umax lim f r code b stk n = POk c r' -> past r r'.
  Proof.
    induction f as [|f IH]; intros r code b stk n c r' H; [discriminate|].
    destruct r as [|t r]; [discriminate|]. destruct t; try discriminate H; cbn [parse_test] in H; (apply past_cons; [reflexivity|]).
    - destruct (peek_word r); [|discriminate]. apply IH in H. exact H.
    - destruct (Nat.ltb _ _); [|discriminate]. destruct r as [|[] r]; try discriminate. apply IH in H. now apply past_cons.
    - destruct (Nat.ltb _ _); [|discriminate]. destruct r as [|[] r]; try discriminate. apply IH in H. now apply past_cons.
    - destruct (closings _ _) as [r1|] eqn:C; [|discriminate]. apply closings_past in C.
      destruct stk; [injection H as <- <-; exact C|]. apply IH in H. eapply past_trans; eauto.
    - destruct (closings _ _) as [r1|] eqn:C; [|discriminate]. apply closings_past in C.
      destruct stk; [injection H as <- <-; exact C|]. apply IH in H. eapply past_trans; eauto.
    - destruct (closings _ _) as [r1|] eqn:C; [|discriminate]. apply closings_past in C.
      destruct stk; [injection H as <- <-; exact C|]. apply IH in H. eapply past_trans; eauto.
    - destruct stk; [discriminate|]. destruct (_ && _); [|discriminate]. apply IH in H. exact H.
    - apply IH in H. exact H.
    - destruct (t_p b); [|apply IH in H; exact H]. destruct stk as [|b1 [|b2 stk]]; [discriminate|injection H as <- <-; apply past_refl|].
      apply IH in H. exact H.
  Qed.
  Lemma parse_incs f r code b stk n c r' : parse_test umax lim f r code b stk n = POk c r' -> incs r' = incs r.
  Proof.
    intros H. apply parse_past in H as (pre & -> & H). unfold incs. rewrite filter_app, app_length.
    replace (filter is_include_token pre) with (@nil token); [reflexivity|]. symmetry. induction pre as [|t pre IH]; [reflexivity|].
    cbn in H. apply andb_prop in H as [H1 H2]. destruct t; try discriminate H1; cbn; auto.
  Qed.
  Lemma open_includes t l s s' : open lim t l s = Some s' -> c_includes s' = c_includes s.
  Proof. unfold open. destruct (Nat.ltb _ _); [|discriminate]. injection 1 as <-. reflexivity. Qed.
  Lemma test_then_includes ty r s r' s' : test_then umax lim ty r s = Some (r', s') ->
    c_includes s' = c_includes s /\ incs r' = incs r.
  Proof.
    unfold test_then. destruct (parse_test _ _ _ _ _ _ _ _) as [| |code r1] eqn:P; try discriminate.
    destruct r1 as [|[] r1]; try discriminate. destruct (open _ _ _ _) as [s1|] eqn:O; [|discriminate]. cbn [option_map]. injection 1 as <- <-.
    apply open_includes in O. apply parse_incs in P. split; [exact O|]. rewrite <- P. reflexivity.
  Qed.
  Lemma with_blocks_includes l s : c_includes (with_blocks l s) = c_includes s.
  Proof. destruct l; reflexivity. Qed.
  Lemma command_includes t r s r' s' : command umax lim t r s = Some (r', s') -> c_includes s <= l_includes lim ->
    c_includes s' + incs r' = c_includes s + incs (t :: r) /\ c_includes s' <= l_includes lim.
  Proof.
    intros H L. destruct t; cbn [command] in H; try discriminate H;
      match goal with |- context [incs (KInclude _ :: _)] => idtac | |- context [incs (?t :: r)] => change (incs (t :: r)) with (incs r) end.
    - apply test_then_includes in H as [A B]. cbn in A. lia.
    - destruct (c_last s); try discriminate; apply test_then_includes in H as [A B]; lia.
    - destruct (c_last s); try discriminate; (destruct r as [|[] r]; try discriminate; destruct (open _ _ _ _) eqn:O; [|discriminate];
        injection H as <- <-; apply open_includes in O; change (incs (KOpen :: r)) with (incs r); lia).
    - destruct (Nat.eqb _ _); [discriminate|].
      match type of H with (if ?x then _ else _) = _ => destruct x; [discriminate|] end.
      destruct r as [|[] r]; try discriminate; destruct (open _ _ _ _) eqn:O; [|discriminate];
        injection H as <- <-; apply open_includes in O; change (incs (KOpen :: r)) with (incs r). cbn in O. lia.
    - destruct r as [|[] r]; try discriminate; destruct (open _ _ _ _) eqn:O; [|discriminate];
        injection H as <- <-; apply open_includes in O; change (incs (KOpen :: r)) with (incs r). cbn in O. lia.
    - destruct (do_break umax label s) as [s1|] eqn:D; [|discriminate]. injection H as <- <-. unfold do_break in D. destruct label.
      + destruct (find_label _ _ _ _) as [[]|]; [|discriminate]. injection D as <-.
        change (c_includes (emit ?l ?x)) with (c_includes x). rewrite with_blocks_includes. lia.
      + destruct (find_loop _ _) as [[]|]; [|discriminate]. injection D as <-.
        change (c_includes (emit ?l ?x)) with (c_includes x). rewrite with_blocks_includes. lia.
    - destruct (do_continue _ _) as [m is]. destruct m as [|[|[|]]]; try discriminate. injection H as <- <-. cbn [emit with_code c_includes]. lia.
    - injection H as <- <-. change (c_includes (do_return s)) with (c_includes s). lia.
    - destruct (Nat.ltb _ _) eqn:Q; [|discriminate]. apply Nat.ltb_lt in Q. injection H as <- <-. cbn [c_includes].
      change (incs (KInclude i :: r)) with (S (incs r)). lia.
    - injection H as <- <-. assert (Q : c_includes (do_require caps s) = c_includes s).
      { unfold do_require. destruct caps; [reflexivity|]. destruct (b_require (c_blk s)); reflexivity. } lia.
    - injection H as <- <-. cbn [emit with_code c_includes]. lia.
    - injection H as <- <-. lia.
    - injection H as <- <-. cbn [emit with_code c_includes]. lia.
    - destruct (close umax clear r s) as [s1|] eqn:C; [|discriminate]. injection H as <- <-.
      assert (Q : c_includes s1 = c_includes s); [|lia]. unfold close in C. destruct (c_stack s); [discriminate|].
      destruct (b_type (c_blk s)); try (injection C as <-; reflexivity); destruct r as [|[] r]; injection C as <-; reflexivity.
  Qed.
  Lemma go_includes : forall f r s s', go umax lim f r s = COk s' -> c_includes s <= l_includes lim ->
    c_includes s' = c_includes s + incs r /\ c_includes s' <= l_includes lim.
  Proof.
    induction f as [|f IH]; intros r s s' H L; destruct r as [|t r]; cbn [go] in H; try discriminate.
    - destruct (c_stack s); [|discriminate]. injection H as <-. cbn. lia.
    - destruct (c_stack s); [|discriminate]. injection H as <-. cbn. lia.
    - destruct (command umax lim t r s) as [[r1 s1]|] eqn:C; [|discriminate]. destruct (command_includes _ _ _ _ _ C L) as [A B].
      destruct (IH _ _ _ H B). lia.
  Qed.
  Theorem include_limit r code : compile umax lim r = Some code -> length (filter is_include_token r) <= l_includes lim.
  Proof.
    unfold compile. destruct (go _ _ _ _ _) as [| |s] eqn:G; try discriminate. intros _.
    destruct (go_includes _ _ _ _ G) as [A B]; [cbn; lia|]. cbn in A. unfold incs in A. lia.
  Qed.

  (** *** foreverypart, with a limit of 0 *)
  Definition is_for_token (t : token) : bool := match t with KForEvery _ => true | _ => false end.
  Definition no_for (l : list blk) : Prop := Forall (fun b => is_for b = false) l.
  Lemma no_for_filter l : no_for l -> filter is_for l = [].
  Proof. induction 1 as [|b l B _ IH]; [reflexivity|]. cbn. now rewrite B. Qed.
  Lemma find_label_no_for n pos : forall l pops r bs, find_label n pops pos l = Some (r, bs) -> no_for l -> False.
  Proof.
    induction l as [|b l IH]; intros pops r bs H N; [discriminate|]. inversion N as [|? ? B N']; subst. cbn [find_label] in H. rewrite B in H.
    destruct (find_label n pops pos l) as [[r1 bs1]|] eqn:E; [|discriminate]. eapply IH; eauto.
  Qed.
  Lemma find_loop_no_for pos : forall l f bs, find_loop pos l = Some (f, bs) -> no_for l -> no_for bs.
  Proof.
    induction l as [|b l IH]; intros f bs H N; [discriminate|]. inversion N as [|? ? B N']; subst. cbn [find_loop] in H.
    destruct (is_loop b); [injection H as <- <-; constructor; auto|].
    destruct (find_loop pos l) as [[r1 bs1]|] eqn:E; [|discriminate]. injection H as <- <-. constructor; [exact B|]. eapply IH; eauto.
  Qed.
  Lemma open_no_for t l s s' : open lim t l s = Some s' -> t <> BFor -> no_for (blocks s) -> no_for (blocks s').
  Proof.
    unfold open. destruct (Nat.ltb _ _); [|discriminate]. injection 1 as <-. intros T N. inversion N; subst.
    constructor; [destruct t; try reflexivity; congruence|]. constructor; auto.
  Qed.
  Lemma test_then_no_for ty r s r' s' : test_then umax lim ty r s = Some (r', s') -> ty <> BFor -> no_for (blocks s) ->
    no_for (blocks s') /\ existsb is_for_token r' = existsb is_for_token r.
  Proof.
    unfold test_then. destruct (parse_test _ _ _ _ _ _ _ _) as [| |code r1] eqn:P; try discriminate.
    destruct r1 as [|[] r1]; try discriminate. destruct (open _ _ _ _) as [s1|] eqn:O; [|discriminate]. cbn [option_map]. injection 1 as <- <-.
    intros T N. split; [eapply open_no_for; eauto|]. apply parse_past in P as (pre & -> & H). rewrite existsb_app.
    replace (existsb is_for_token pre) with false; [reflexivity|]. symmetry. clear - H. induction pre as [|t pre IH]; [reflexivity|].
    cbn in H. apply andb_prop in H as [H1 H2]. destruct t; try discriminate H1; cbn; auto.
  Qed.
  Lemma command_no_for t r s r' s' : l_fep lim = 0 -> command umax lim t r s = Some (r', s') -> no_for (blocks s) ->
    no_for (blocks s') /\ existsb is_for_token r' = existsb is_for_token (t :: r).
  Proof.
    intros Z H N. destruct t; cbn [command] in H; try discriminate H;
      try match goal with |- context [existsb _ (?t :: r)] => change (existsb is_for_token (t :: r)) with (existsb is_for_token r) end.
    - eapply test_then_no_for; [exact H|discriminate|]. inversion N; subst. constructor; auto.
    - destruct (c_last s); try discriminate; (eapply test_then_no_for; [exact H|discriminate|exact N]).
    - destruct (c_last s); try discriminate; (destruct r as [|[] r]; try discriminate; destruct (open _ _ _ _) eqn:O; [|discriminate];
        injection H as <- <-; split; [eapply open_no_for; eauto; discriminate|reflexivity]).
    - inversion N as [|? ? B N']; subst. rewrite (no_for_filter _ N'), Z in H. discriminate H.
    - destruct r as [|[] r]; try discriminate; destruct (open _ _ _ _) eqn:O; [|discriminate];
        injection H as <- <-; split; [eapply open_no_for; eauto; discriminate|reflexivity].
    - destruct (do_break umax label s) as [s1|] eqn:D; [|discriminate]. injection H as <- <-. split; [|reflexivity]. unfold do_break in D. destruct label.
      + destruct (find_label _ _ _ _) as [[]|] eqn:F; [|discriminate]. destruct (find_label_no_for _ _ _ _ _ _ F N).
      + destruct (find_loop _ _) as [[f0 bs]|] eqn:F; [|discriminate]. injection D as <-.
        pose proof (find_loop_length _ _ _ _ F) as L. apply find_loop_no_for in F; [|exact N]. destruct bs as [|b bs]; [discriminate|]. exact F.
    - destruct (do_continue _ _) as [m is]. destruct m as [|[|[|]]]; try discriminate. injection H as <- <-. auto.
    - injection H as <- <-. auto.
    - destruct (Nat.ltb _ _); [|discriminate]. injection H as <- <-. auto.
    - injection H as <- <-. split; [|reflexivity]. unfold do_require. destruct caps; [exact N|]. destruct (b_require (c_blk s)); [exact N|].
      inversion N; subst. constructor; auto.
    - injection H as <- <-. auto.
    - injection H as <- <-. auto.
    - injection H as <- <-. auto.
    - destruct (close umax clear r s) as [s1|] eqn:C; [|discriminate]. injection H as <- <-. split; [|reflexivity].
      unfold close in C. inversion N as [|? ? B N']; subst. destruct (c_stack s) as [|p stk]; [discriminate|]. inversion N' as [|? ? B2 N2]; subst.
      destruct (b_type (c_blk s)); try (injection C as <-; constructor; auto); destruct r as [|[] r]; injection C as <-; constructor; auto.
  Qed.
  Lemma go_no_for : l_fep lim = 0 -> forall f r s s', go umax lim f r s = COk s' -> no_for (blocks s) -> existsb is_for_token r = false.
  Proof.
    intros Z. induction f as [|f IH]; intros r s s' H N; destruct r as [|t r]; cbn [go] in H; try discriminate; try reflexivity.
    destruct (command umax lim t r s) as [[r1 s1]|] eqn:C; [|discriminate]. destruct (command_no_for _ _ _ _ _ Z C N) as [A <-]. eauto.
  Qed.
  Lemma fdepth_tokens :
    (forall c, existsb is_for_token (rcmd c) = false -> fdepth c = 0) /\
    (forall cs, existsb is_for_token (rcmds cs) = false -> fdepths cs = 0) /\
    (forall r, existsb is_for_token (rrest r) = false -> fdepth_rest r = 0).
  Proof.
    apply cmd_ind3; cbn [rcmd rcmds rrest fdepth fdepths fdepth_rest]; intros; auto; cbn [existsb is_for_token orb] in *;
      repeat match goal with H : existsb _ (_ ++ _) = false |- _ => rewrite existsb_app in H; apply orb_false_elim in H as [? H]; cbn [existsb is_for_token orb] in H end;
      repeat match goal with IH : _ -> _ = 0, H : _ |- _ => specialize (IH H) end; try discriminate; lia.
  Qed.
  Theorem no_foreverypart p code : compile umax lim (rprog p) = Some code -> l_fep lim = 0 -> fdepths (p_cmds p) = 0.
  Proof.
    unfold compile, rprog. intros H Z. destruct (go _ _ _ _ _) as [| |s] eqn:G; try discriminate.
    apply go_no_for in G; auto. { apply fdepth_tokens. exact G. } repeat constructor.
  Qed.
End Limits.
