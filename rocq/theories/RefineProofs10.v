(** Programs that the compiler accepts are within its limits. *)
From Coq Require Import Lia.
From Verif Require Import Base Lib Value Comparator Expr Sieve Compile CompileSpec CompileProofs1 CompileProofs3 CompileProofs4 CompileProofs10 ControlSpec
  RefineSpec RefineProofs1 RefineProofs9.
Import ListNotations.
Local Open Scope list_scope.

(** What the compiler gives to commands and tests *)
Definition tok_ok (k : token) : Prop :=
  match k with
  | KLeaf i => is_test i = true /\ fresh i = true
  | KAct i | KInclude i => plain i = true
  | KVacation _ v => plain v = true
  | KClose o => plain_opt o = true
  | _ => True
  end.
Lemma tree_toks : (forall t, Forall tok_ok (rtree t) -> tleaves t = true /\ fresh_tree t = true) /\
  (forall ts, Forall tok_ok (rtrees ts) -> tleaves_all ts = true /\ fresh_trees ts = true).
Proof.
  apply tree_ind2; cbn [rtree rtrees tleaves tleaves_all fresh_tree fresh_trees].
  - auto.
  - intros i H. apply Forall_inv in H. exact H.
  - intros t IH H. apply IH. eapply Forall_inv_tail, H.
  - intros ts IH H. apply IH. apply Forall_inv_tail, Forall_inv_tail, Forall_app in H. apply H.
  - intros ts IH H. apply IH. apply Forall_inv_tail, Forall_inv_tail, Forall_app in H. apply H.
  - auto.
  - intros t IH ts IHs H. apply Forall_app in H. destruct H as [H1 H2]. apply Forall_inv_tail in H2.
    destruct (IH H1) as [-> ->]. destruct (IHs H2) as [-> ->]. auto.
Qed.
Lemma fresh_toks :
  (forall c, Forall tok_ok (rcmd c) -> fresh_cmd c = true) /\
  (forall cs, Forall tok_ok (rcmds cs) -> fresh_cmds cs = true) /\
  (forall r, Forall tok_ok (rrest r) -> fresh_rest r = true).
Proof.
  apply cmd_ind3; cbn [rcmd rcmds rrest fresh_cmd fresh_cmds fresh_rest]; auto.
  - intros t b IHb k r IHr H. apply Forall_inv_tail, Forall_app in H. destruct H as [H1 H]. apply Forall_inv_tail, Forall_app in H. destruct H as [H2 H].
    apply Forall_inv_tail in H. rewrite (proj2 (proj1 tree_toks _ H1)), IHb, IHr; auto.
  - intros l b IHb k H. apply IHb. apply Forall_inv_tail, Forall_inv_tail, Forall_app in H. apply H.
  - intros l b IHb k H. apply IHb. apply Forall_inv_tail, Forall_inv_tail, Forall_app in H. apply H.
  - intros c IH cs IHs H. apply Forall_app in H. destruct H as [H1 H2]. rewrite IH, IHs; auto.
  - intros b IHb k H. apply IHb. apply Forall_inv_tail, Forall_inv_tail, Forall_app in H. apply H.
  - intros t b IHb k r IHr H. apply Forall_inv_tail, Forall_app in H. destruct H as [H1 H]. apply Forall_inv_tail, Forall_app in H. destruct H as [H2 H].
    apply Forall_inv_tail in H. rewrite (proj2 (proj1 tree_toks _ H1)), IHb, IHr; auto.
Qed.

Definition shapes (s : cst) := map bshape (blocks s).
Lemma encls_cons x sh : good sh -> encls (x :: sh) = encl_of x :: encls sh.
Proof. intro G. unfold encls. destruct sh; [destruct G|reflexivity]. Qed.
Lemma encls_len sh : good sh -> length (encls sh) = length sh - 1.
Proof.
  intro G. unfold encls. rewrite map_length. clear G. induction sh as [|x [|y sh] IH]; [reflexivity|reflexivity|].
  change (removelast (x :: y :: sh)) with (x :: removelast (y :: sh)). cbn [length] in *. lia.
Qed.
Lemma find_label_shapes n : forall l p pos k l', find_label n p pos l = Some (k, l') -> map bshape l' = map bshape l.
Proof.
  induction l as [|b l IH]; intros p pos k l' H; cbn [find_label] in H; [discriminate|].
  destruct (is_for b).
  - destruct (label_eqb _ _); [injection H as <- <-; reflexivity|]. destruct (find_label _ _ _ l) as [[k' l'']|] eqn:E; [|discriminate].
    cbn in H. injection H as <- <-. cbn. f_equal. eauto.
  - destruct (find_label _ _ _ l) as [[k' l'']|] eqn:E; [|discriminate]. cbn in H. injection H as <- <-. cbn. f_equal. eauto.
Qed.
Lemma find_loop_shapes : forall l pos k l', find_loop pos l = Some (k, l') -> map bshape l' = map bshape l.
Proof.
  induction l as [|b l IH]; intros pos k l' H; cbn [find_loop] in H; [discriminate|].
  destruct (is_loop b); [injection H as <- <-; reflexivity|].
  destruct (find_loop _ l) as [[k' l'']|] eqn:E; [|discriminate]. cbn in H. injection H as <- <-. cbn. f_equal. eauto.
Qed.
Lemma with_blocks_shapes l c : map bshape l = shapes c -> shapes (with_blocks l c) = shapes c.
Proof. intro H. destruct l as [|b l]; [discriminate|]. exact H. Qed.
Lemma do_break_shapes u l c c' : do_break u l c = Some c' -> shapes c' = shapes c.
Proof.
  unfold do_break. destruct l as [n|].
  - destruct (find_label _ _ _ _) as [[k l']|] eqn:E; [|discriminate]. injection 1 as <-. change (shapes (with_blocks l' c) = shapes c). apply with_blocks_shapes.
    eapply find_label_shapes; eauto.
  - destruct (find_loop _ _) as [[k l']|] eqn:E; [|discriminate]. injection 1 as <-. change (shapes (with_blocks l' c) = shapes c). apply with_blocks_shapes.
    eapply find_loop_shapes; eauto.
Qed.
Lemma open_shapes lim t l c c' : open lim t l c = Some c' -> shapes c' = (t, l) :: shapes c /\ length (c_stack c) < l_blocks lim.
Proof. unfold open. destruct (Nat.ltb _ _) eqn:L; [|discriminate]. intro H. injection H as <-. split; [reflexivity|now apply Nat.ltb_lt]. Qed.
Lemma close_shapes u o r c c' : close u o r c = Some c' -> shapes c = bshape (c_blk c) :: shapes c'.
Proof.
  unfold close. destruct (c_stack c) as [|prev stk] eqn:S; [discriminate|]. cbv zeta. intro H.
  assert (X : c_stack c' = stk /\ bshape (c_blk c') = bshape prev).
  { destruct (b_type (c_blk c)); try (injection H as <-; split; reflexivity); destruct r as [|[] r]; injection H as <-; split; reflexivity. }
  destruct X as [X1 X2]. unfold shapes, blocks. rewrite S, X1. cbn [map]. rewrite X2. reflexivity.
Qed.
Lemma find_label_named n : forall l p pos x, good (map bshape l) -> find_label n p pos l = Some x -> existsb (encl_named n) (encls (map bshape l)) = true.
Proof.
  intros l p pos x G H. rewrite <- label_used by exact G. clear G. revert p pos x H. induction l as [|b l IH]; intros p pos x H; cbn [find_label] in H; [discriminate|].
  cbn [existsb]. destruct (is_for b).
  - destruct (label_eqb (b_label b) n); [reflexivity|]. destruct (find_label _ _ _ l) eqn:E; [|discriminate]. apply IH in E. now rewrite E.
  - destruct (find_label _ _ _ l) eqn:E; [|discriminate]. apply IH in E. rewrite E. apply Bool.orb_true_r.
Qed.
Lemma find_loop_any : forall l pos x, good (map bshape l) -> find_loop pos l = Some x ->
  existsb (fun x => match x with EPlain => false | _ => true end) (encls (map bshape l)) = true.
Proof.
  induction l as [|b l IH]; intros pos x G H; [discriminate|]. cbn [find_loop] in H. destruct l as [|b' l].
  - destruct G as [G _]. unfold is_loop in H. rewrite G in H. discriminate.
  - change (map bshape (b :: b' :: l)) with (bshape b :: map bshape (b' :: l)) in *. destruct G as (_ & _ & G). rewrite encls_cons by exact G. cbn [existsb].
    destruct (is_loop b) eqn:L.
    + unfold is_loop in L. unfold encl_of. cbn. destruct (b_type b); try discriminate; reflexivity.
    + destruct (find_loop _ (b' :: l)) eqn:E; [|discriminate]. erewrite IH; eauto. apply Bool.orb_true_r.
Qed.

Section Accepts.
  Variables (umax : nat) (lim : limits).
  Definition rd (r : list token) sh (s' : cst) : Prop := exists f s, go umax lim f r s = COk s' /\ shapes s = sh.
  Lemma rd_one t r sh s' : rd (t :: r) sh s' ->
    (forall s r1 s1, shapes s = sh -> command umax lim t r s = Some (r1, s1) -> r1 = r /\ shapes s1 = sh) -> rd r sh s'.
  Proof.
    intros (f & s & H & D) C. destruct f as [|f]; [discriminate|]. cbn [go] in H.
    destruct (command umax lim t r s) as [[r1 s1]|] eqn:E; [|discriminate]. destruct (C _ _ _ D E) as [-> Q]. exists f, s1. auto.
  Qed.
  Lemma rd_close c r x sh s' : rd (KClose c :: r) (x :: sh) s' -> rd r sh s'.
  Proof.
    intros (f & s & H & D). destruct f as [|f]; [discriminate|]. cbn [go command] in H.
    destruct (close umax c r s) as [s1|] eqn:E; [|discriminate]. exists f, s1. split; [exact H|]. apply close_shapes in E. congruence.
  Qed.
  Lemma stack_len s sh : good sh -> shapes s = sh -> length (c_stack s) = length (encls sh).
  Proof. intros G <-. rewrite encls_len by exact G. unfold shapes, blocks. cbn [map length]. rewrite map_length. lia. Qed.
  Lemma rd_test tok ty t r sh s' : tok = KIf /\ ty = BIf \/ tok = KElsIf /\ ty = BElsIf -> good sh ->
    rd (tok :: rtree t ++ KOpen :: r) sh s' -> Nat.leb (tdepth t) (l_tests lim) = true /\ Nat.ltb (length (encls sh)) (l_blocks lim) = true /\
    rd r ((ty, None) :: sh) s'.
  Proof.
    intros Tk G (f & s & H & D). destruct f as [|f]; [discriminate|].
    assert (X : exists s1, go umax lim (S f) (tok :: rtree t ++ KOpen :: r) s =
        match test_then umax lim ty (rtree t ++ KOpen :: r) s1 with Some (r2, s2) => go umax lim f r2 s2 | None => CErr end
        /\ shapes s1 = sh).
    { destruct Tk as [[-> ->]|[-> ->]]; cbn [go command].
      - eexists. split; [reflexivity|]. exact D.
      - destruct (c_last s) eqn:Cl; try (exists s; split; [reflexivity|exact D]); exfalso; cbn [go command] in H; rewrite Cl in H; discriminate. }
    destruct X as (s1 & Q & D1). rewrite Q in H. clear Q. unfold test_then in H.
    destruct (parse_test _ _ _ _ _ _ _ _) as [| |code r1] eqn:P; try discriminate.
    destruct (proj1 (tree_limit umax lim) t (KOpen :: r) [] code r1) as (A & B & _); [repeat eexists; [|exact P]; reflexivity|cbn; lia|].
    rewrite (B eq_refl) in H. destruct (open lim ty None (with_code code s1)) as [s2|] eqn:O; [|discriminate]. cbn [option_map] in H.
    apply open_shapes in O as [O1 O2]. cbn [length] in A. rewrite Nat.add_0_r in A.
    change (shapes (with_code code s1)) with (shapes s1) in O1. change (c_stack (with_code code s1)) with (c_stack s1) in O2.
    rewrite (stack_len _ _ G D1) in O2. split; [now apply Nat.leb_le|]. split; [now apply Nat.ltb_lt|].
    exists f, s2. split; [exact H|]. congruence.
  Qed.
  Lemma rd_else r sh s' : good sh -> rd (KElse :: KOpen :: r) sh s' -> Nat.ltb (length (encls sh)) (l_blocks lim) = true /\ rd r ((BElse, None) :: sh) s'.
  Proof.
    intros G (f & s & H & D). destruct f as [|f]; [discriminate|]. cbn [go command] in H.
    assert (X : exists s2, open lim BElse None s = Some s2 /\ go umax lim f r s2 = COk s').
    { destruct (c_last s); try discriminate; (destruct (open lim BElse None s) as [s2|] eqn:O; [|discriminate]); eauto. }
    destruct X as (s2 & O & H'). apply open_shapes in O as [O1 O2]. rewrite (stack_len _ _ G D) in O2. split; [now apply Nat.ltb_lt|].
    exists f, s2. split; [exact H'|congruence].
  Qed.
  Lemma rd_while e r sh s' : good sh -> rd (KWhile e :: KOpen :: r) sh s' -> Nat.ltb (length (encls sh)) (l_blocks lim) = true /\ rd r ((BWhile, None) :: sh) s'.
  Proof.
    intros G (f & s & H & D). destruct f as [|f]; [discriminate|]. cbn [go command] in H.
    destruct (open _ _ _ _) as [s2|] eqn:O; [|discriminate]. cbn [option_map] in H. apply open_shapes in O as [O1 O2].
    change (shapes (emit [IxWhile e umax] s)) with (shapes s) in O1. change (c_stack (emit [IxWhile e umax] s)) with (c_stack s) in O2.
    rewrite (stack_len _ _ G D) in O2. split; [now apply Nat.ltb_lt|]. exists f, s2. split; [exact H|congruence].
  Qed.
  Lemma rd_for l r sh s' : good sh -> rd (KForEvery l :: KOpen :: r) sh s' ->
    Nat.ltb (length (encls sh)) (l_blocks lim) && negb (Nat.eqb (length (filter encl_for (tl (encls sh)))) (l_fep lim)) &&
      match l with Some n => negb (existsb (encl_named n) (tl (encls sh))) | None => true end = true /\
    rd r ((BFor, l) :: sh) s'.
  Proof.
    intros G (f & s & H & D). destruct f as [|f]; [discriminate|]. cbn [go command] in H.
    destruct (Nat.eqb _ _) eqn:F; [discriminate|].
    destruct (match l with Some n => existsb (fun b => label_eqb (b_label b) n) (c_stack s) | None => false end) eqn:L; [discriminate|].
    destruct (open _ _ _ _) as [s2|] eqn:O; [|discriminate]. cbn [option_map] in H. apply open_shapes in O as [O1 O2].
    change (shapes (emit [IxForEveryPartPush; IxForEveryPart umax] s)) with (shapes s) in O1.
    change (c_stack (emit [IxForEveryPartPush; IxForEveryPart umax] s)) with (c_stack s) in O2.
    rewrite (stack_len _ _ G D) in O2. split; [|exists f, s2; split; [exact H|congruence]].
    assert (X : length (filter encl_for (tl (encls sh))) = length (filter is_for (c_stack s)) /\
                forall n, existsb (encl_named n) (tl (encls sh)) = existsb (fun b => label_eqb (b_label b) n) (c_stack s)).
    { subst sh. unfold shapes, blocks in *. cbn [map] in *. destruct (c_stack s) as [|b0 bs]; [split; reflexivity|].
      assert (G' : good (map bshape (b0 :: bs))) by (cbn [map] in *; apply G). rewrite encls_cons by exact G'. cbn [tl].
      split; [symmetry; now apply fep_count|intro n; symmetry; now apply label_used]. }
    destruct X as [X1 X2]. rewrite X1, F. apply Nat.ltb_lt in O2. rewrite O2. destruct l as [n|]; [|reflexivity]. rewrite X2, L. reflexivity.
  Qed.

  Lemma accepts :
    (forall c r sh s', good sh -> Forall tok_ok (rcmd c) -> fit_cmd (encls sh) c = true -> rd (rcmd c ++ r) sh s' ->
       ok_cmd lim (encls sh) c = true /\ rd r sh s') /\
    (forall cs r sh s', good sh -> Forall tok_ok (rcmds cs) -> fit_cmds (encls sh) cs = true -> rd (rcmds cs ++ r) sh s' ->
       ok_cmds lim (encls sh) cs = true /\ rd r sh s') /\
    (forall rs r sh s', good sh -> Forall tok_ok (rrest rs) -> fit_rest (encls sh) rs = true -> rd (rrest rs ++ r) sh s' ->
       ok_rest lim (encls sh) rs = true /\ rd r sh s').
  Proof.
    assert (Good : forall ty l sh, good sh -> ty <> BNot -> (l = None \/ ty = BFor) -> good ((ty, l) :: sh)).
    { intros ty l sh G N L. destruct sh; [destruct G|]. split; [exact N|split; [exact L|exact G]]. }
    apply cmd_ind3; cbn [rcmd rcmds rrest ok_cmd ok_cmds ok_rest fit_cmd fit_cmds fit_rest app].
    - intros i r sh s' G T F H. split; [exact (Forall_inv T)|]. apply (rd_one _ _ _ _ H). cbn [command]. intros s r1 s1 D X. injection X as <- <-. auto.
    - intros r sh s' G T F H. split; [reflexivity|]. apply (rd_one _ _ _ _ H). cbn [command]. intros s r1 s1 D X. injection X as <- <-. auto.
    - intros t v r sh s' G T F H. split; [exact (Forall_inv T)|]. apply (rd_one _ _ _ _ H). cbn [command]. intros s r1 s1 D X. injection X as <- <-. auto.
    - intros t b IHb k rs IHr r sh s' G T F H. rewrite <- app_assoc in H. cbn [app] in H. rewrite <- app_assoc in H. cbn [app] in H.
      apply Forall_inv_tail, Forall_app in T. destruct T as [T1 T]. apply Forall_inv_tail, Forall_app in T. destruct T as [T2 T].
      pose proof (Forall_inv T) as T3. apply Forall_inv_tail in T. apply andb_prop in F. destruct F as [F1 F2].
      destruct (rd_test KIf BIf _ _ _ _ (or_introl (conj eq_refl eq_refl)) G H) as (-> & -> & H1). rewrite (proj1 (proj1 tree_toks _ T1)).
      destruct (IHb _ _ _ (Good BIf None _ G ltac:(discriminate) (or_introl eq_refl)) T2 ltac:(rewrite encls_cons by exact G; exact F1) H1) as (C1 & H2).
      rewrite encls_cons in C1 by exact G. change (encl_of (BIf, None)) with EPlain in C1. rewrite C1. apply rd_close in H2.
      destruct (IHr _ _ _ G T F2 H2) as (-> & H3). cbn [tok_ok] in T3. rewrite T3. auto.
    - intros l b IHb k r sh s' G T F H. rewrite <- app_assoc in H. cbn [app] in H.
      apply Forall_inv_tail, Forall_inv_tail, Forall_app in T. destruct T as [T2 T]. pose proof (Forall_inv T) as T3.
      destruct (rd_for _ _ _ _ G H) as (A & H1). rewrite A.
      destruct (IHb _ _ _ (Good BFor l _ G ltac:(discriminate) (or_intror eq_refl)) T2 ltac:(rewrite encls_cons by exact G; exact F) H1) as (C1 & H2).
      rewrite encls_cons in C1 by exact G. change (encl_of (BFor, l)) with (EFor l) in C1. rewrite C1. apply rd_close in H2. cbn [tok_ok] in T3. rewrite T3. auto.
    - intros e b IHb k r sh s' G T F H. rewrite <- app_assoc in H. cbn [app] in H.
      apply Forall_inv_tail, Forall_inv_tail, Forall_app in T. destruct T as [T2 T]. pose proof (Forall_inv T) as T3.
      destruct (rd_while _ _ _ _ G H) as (A & H1). rewrite A.
      destruct (IHb _ _ _ (Good BWhile None _ G ltac:(discriminate) (or_introl eq_refl)) T2 ltac:(rewrite encls_cons by exact G; exact F) H1) as (C1 & H2).
      rewrite encls_cons in C1 by exact G. change (encl_of (BWhile, None)) with EWhile in C1. rewrite C1. apply rd_close in H2. cbn [tok_ok] in T3. rewrite T3. auto.
    - intros l r sh s' G T F H. split.
      + destruct H as (f & s & H & D). destruct f as [|f]; [discriminate|]. cbn [go command] in H.
        destruct (do_break umax l s) as [s1|] eqn:E; [|discriminate]. unfold do_break in E. rewrite <- D in G |- *. destruct l as [n|].
        * destruct (find_label _ _ _ _) as [x|] eqn:X; [|discriminate]. eapply find_label_named; eauto.
        * destruct (find_loop _ _) as [x|] eqn:X; [|discriminate]. eapply find_loop_any; eauto.
      + apply (rd_one _ _ _ _ H). cbn [command]. intros s r1 s1 D X. destruct (do_break umax l s) eqn:E; [|discriminate]. injection X as <- <-.
        split; [reflexivity|]. rewrite <- D. eapply do_break_shapes; eauto.
    - intros r sh s' G T F H. split; [exact F|]. apply (rd_one _ _ _ _ H). cbn [command]. intros s r1 s1 D X.
      destruct (do_continue 0 (blocks s)) as [m is]. destruct m as [|[|[|m]]]; try discriminate. injection X as <- <-. auto.
    - intros r sh s' G T F H. split; [reflexivity|]. apply (rd_one _ _ _ _ H). cbn [command]. intros s r1 s1 D X. injection X as <- <-. auto.
    - auto.
    - intros c IHc cs IHs r sh s' G T F H. rewrite <- app_assoc in H. apply Forall_app in T. destruct T as [T1 T2]. apply andb_prop in F. destruct F as [F1 F2].
      destruct (IHc _ _ _ G T1 F1 H) as (-> & H1). destruct (IHs _ _ _ G T2 F2 H1) as (-> & H2). auto.
    - auto.
    - intros b IHb k r sh s' G T F H. rewrite <- app_assoc in H. cbn [app] in H.
      apply Forall_inv_tail, Forall_inv_tail, Forall_app in T. destruct T as [T2 T]. pose proof (Forall_inv T) as T3.
      destruct (rd_else _ _ _ G H) as (A & H1). rewrite A.
      destruct (IHb _ _ _ (Good BElse None _ G ltac:(discriminate) (or_introl eq_refl)) T2 ltac:(rewrite encls_cons by exact G; exact F) H1) as (C1 & H2).
      rewrite encls_cons in C1 by exact G. change (encl_of (BElse, None)) with EPlain in C1. rewrite C1. apply rd_close in H2. cbn [tok_ok] in T3. rewrite T3. auto.
    - intros t b IHb k rs IHr r sh s' G T F H. rewrite <- app_assoc in H. cbn [app] in H. rewrite <- app_assoc in H. cbn [app] in H.
      apply Forall_inv_tail, Forall_app in T. destruct T as [T1 T]. apply Forall_inv_tail, Forall_app in T. destruct T as [T2 T].
      pose proof (Forall_inv T) as T3. apply Forall_inv_tail in T. apply andb_prop in F. destruct F as [F1 F2].
      destruct (rd_test KElsIf BElsIf _ _ _ _ (or_intror (conj eq_refl eq_refl)) G H) as (-> & -> & H1). rewrite (proj1 (proj1 tree_toks _ T1)).
      destruct (IHb _ _ _ (Good BElsIf None _ G ltac:(discriminate) (or_introl eq_refl)) T2 ltac:(rewrite encls_cons by exact G; exact F1) H1) as (C1 & H2).
      rewrite encls_cons in C1 by exact G. change (encl_of (BElsIf, None)) with EPlain in C1. rewrite C1. apply rd_close in H2.
      destruct (IHr _ _ _ G T F2 H2) as (-> & H3). cbn [tok_ok] in T3. rewrite T3. auto.
  Qed.
End Accepts.
