(** Scripts that the compiler accepts, as programs. *)
From Coq Require Import Lia.
From Verif Require Import Base Lib Value Comparator Expr Sieve Compile CompileSpec RefineSpec RefineProofs1 RefineProofs8.
Import ListNotations.
Local Open Scope list_scope.

Definition iflike (t : btype) : bool := match t with BIf | BElsIf => true | _ => false end.
(** A script from inside of blocks, innermost first *)
Fixpoint body (bts : list btype) (ks : list token) : Prop :=
  match bts with
  | [] => exists cs, ks = rcmds cs
  | t :: bts' => exists cs k r ws, ks = rcmds cs ++ KClose k :: rrest r ++ ws /\ (iflike t = false -> r = RNone) /\ body bts' ws
  end.
Definition rbody (bts : list btype) (ks : list token) : Prop := exists r ws, ks = rrest r ++ ws /\ body bts ws.
Lemma body_cons c bts ks : body bts ks -> body bts (rcmd c ++ ks).
Proof.
  destruct bts as [|t bts].
  - intros (cs & ->). exists (CCons c cs). reflexivity.
  - intros (cs & k & r & ws & -> & A & B). exists (CCons c cs), k, r, ws. split; [cbn; now rewrite <- app_assoc|auto].
Qed.

Definition types (s : cst) : list btype := removelast (map b_type (blocks s)).
Lemma find_label_types n : forall l p pos k l', find_label n p pos l = Some (k, l') -> map b_type l' = map b_type l.
Proof.
  induction l as [|b l IH]; intros p pos k l' H; cbn [find_label] in H; [discriminate|].
  destruct (is_for b).
  - destruct (label_eqb _ _); [injection H as <- <-; reflexivity|]. destruct (find_label _ _ _ l) as [[k' l'']|] eqn:E; [|discriminate].
    cbn in H. injection H as <- <-. cbn. f_equal. eauto.
  - destruct (find_label _ _ _ l) as [[k' l'']|] eqn:E; [|discriminate]. cbn in H. injection H as <- <-. cbn. f_equal. eauto.
Qed.
Lemma find_loop_types : forall l pos k l', find_loop pos l = Some (k, l') -> map b_type l' = map b_type l.
Proof.
  induction l as [|b l IH]; intros pos k l' H; cbn [find_loop] in H; [discriminate|].
  destruct (is_loop b); [injection H as <- <-; reflexivity|].
  destruct (find_loop _ l) as [[k' l'']|] eqn:E; [|discriminate]. cbn in H. injection H as <- <-. cbn. f_equal. eauto.
Qed.
Lemma with_blocks_types l c : map b_type l = map b_type (blocks c) -> types (with_blocks l c) = types c.
Proof. intro H. destruct l as [|b l]; [discriminate|]. unfold types. change (blocks (with_blocks (b :: l) c)) with (b :: l). now rewrite H. Qed.
Lemma do_break_types u l c c' : do_break u l c = Some c' -> types c' = types c.
Proof.
  unfold do_break. destruct l as [n|].
  - destruct (find_label _ _ _ _) as [[k l']|] eqn:E; [|discriminate]. injection 1 as <-. change (types (with_blocks l' c) = types c). apply with_blocks_types.
    eapply find_label_types; eauto.
  - destruct (find_loop _ _) as [[k l']|] eqn:E; [|discriminate]. injection 1 as <-. change (types (with_blocks l' c) = types c). apply with_blocks_types.
    eapply find_loop_types; eauto.
Qed.
Lemma open_types lim t l c c' : open lim t l c = Some c' -> types c' = t :: types c.
Proof. unfold open. destruct (Nat.ltb _ _); [|discriminate]. intro H. injection H as <-. reflexivity. Qed.
Lemma close_types u o r c c' : close u o r c = Some c' -> types c = b_type (c_blk c) :: types c'.
Proof.
  unfold close. destruct (c_stack c) as [|prev stk] eqn:S; [discriminate|]. cbv zeta. intro H.
  assert (X : c_stack c' = stk /\ b_type (c_blk c') = b_type prev).
  { destruct (b_type (c_blk c)); try (injection H as <-; split; reflexivity); destruct r as [|[] r]; injection H as <-; split; reflexivity. }
  destruct X as [X1 X2]. unfold types, blocks. rewrite S, X1. cbn [map]. rewrite X2. reflexivity.
Qed.
Lemma neat_app a us b r : neat a (us ++ b :: r) = true -> neat b r = true.
Proof. revert a. induction us as [|x us IH]; intros a N; cbn [app neat] in N; apply andb_prop in N; destruct N as [_ N]; [exact N|eapply IH; exact N]. Qed.

Section Commands.
  Variables (umax : nat) (lim : limits).
  Lemma close_last o r c c' : close umax o r c = Some c' -> b_type (c_blk c) <> BNot -> iflike (b_type (c_blk c)) = false ->
    c_last c' = BNot \/ c_last c' = BElse.
  Proof.
    unfold close. destruct (c_stack c); [discriminate|]. cbv zeta. destruct (b_type (c_blk c)); intros H N I; try discriminate I; try congruence;
      injection H as <-; auto.
  Qed.
  Lemma else_last f r s s' : else_next r = true -> go umax lim f r s = COk s' -> iflike (c_last s) = true.
  Proof.
    intros E G. destruct r as [|[] r]; try discriminate E; destruct f; try discriminate G; cbn [go command] in G;
      destruct (c_last s); try reflexivity; discriminate G.
  Qed.
  Lemma neat_else a r : neat a r = true -> match a with KClose _ => False | _ => True end -> else_next r = false.
  Proof.
    destruct r as [|b r]; [reflexivity|]. intros N A. apply neat_tail in N. destruct N as [N _]. destruct b; try reflexivity; destruct a; try discriminate N; contradiction.
  Qed.
  Lemma body_same a bts k c f r s s' : [k] = rcmd c -> match k with KClose _ => False | _ => True end ->
    neat k r = true -> (else_next r = false -> body bts r) -> neat a (k :: r) = true -> go umax lim f r s = COk s' -> body bts (k :: r).
  Proof. intros E NK N B _ _. change (k :: r) with ([k] ++ r). rewrite E. apply body_cons, B. eapply neat_else; eassumption. Qed.
  Lemma test_then_shape t r s r' s' k : neat k r = true -> match k with KAnyOf | KAllOf => False | _ => True end -> ends k = false ->
    test_then umax lim t r s = Some (r', s') ->
    exists tr, r = rtree tr ++ KOpen :: r' /\ neat KOpen r' = true /\ types s' = t :: types s.
  Proof.
    intros N NK EK H. unfold test_then in H. destruct (parse_test _ _ _ _ _ _ _ _) as [| |code r1] eqn:P; try discriminate.
    destruct r1 as [|[] r1]; try discriminate.
    assert (H' : option_map (fun s => (r1, s)) (open lim t None (with_code code s)) = Some (r', s')) by exact H. clear H.
    destruct (open _ _ _ _) as [s1|] eqn:O; [|discriminate]. injection H' as <- <-.
    destruct (test_shape umax lim _ k _ _ top_tblock _ _ _ _ (eq_refl : t_p top_tblock = 0) (Forall_nil _) N NK P) as (us & -> & B).
    rewrite EK in B. destruct B as (tr & us' & -> & A). cbn [length after] in A. subst us'. rewrite app_nil_r in *. exists tr. split; [reflexivity|].
    split; [eapply neat_app; exact N|]. exact (open_types _ _ _ _ _ O).
  Qed.

  Definition alone (k : token) : bool := match k with KRequire _ | KInclude _ => false | _ => true end.
  Lemma go_shape : forall f a ks s s', neat a ks = true -> forallb alone ks = true -> Forall (fun t => t <> BNot) (types s) ->
    go umax lim f ks s = COk s' -> if else_next ks then rbody (types s) ks else body (types s) ks.
  Proof.
    induction f as [|f IH]; intros a ks s s' N P T G.
    - destruct ks as [|k ks]; [|discriminate]. cbn [go] in G. destruct (c_stack s) eqn:S; [|discriminate]. cbn [else_next].
      unfold types, blocks. rewrite S. exists CNil. reflexivity.
    - destruct ks as [|k ks].
      { cbn [go] in G. destruct (c_stack s) eqn:S; [|discriminate]. cbn [else_next]. unfold types, blocks. rewrite S. exists CNil. reflexivity. }
      cbn [go] in G. destruct (command umax lim k ks s) as [[r1 s1]|] eqn:C; [|discriminate].
      cbn [forallb] in P. apply andb_prop in P. destruct P as [P1 P2]. pose proof (neat_tail _ _ _ N) as [N1 N2].
      assert (Simple : forall c, [k] = rcmd c -> match k with KClose _ => False | _ => True end -> r1 = ks -> types s1 = types s ->
                body (types s) (k :: ks)).
      { intros c Ec NK -> Et. change (k :: ks) with ([k] ++ ks). rewrite Ec. apply body_cons. rewrite <- Et in T |- *.
        pose proof (IH _ _ _ _ N2 P2 T G) as B. rewrite (neat_else _ _ N2 NK) in B. exact B. }
      assert (Block : forall us t, ks = us ++ KOpen :: r1 -> neat KOpen r1 = true -> types s1 = t :: types s -> t <> BNot -> body (t :: types s) r1).
      { intros us t -> Nr Et Nt. rewrite <- Et. rewrite forallb_app in P2. apply andb_prop in P2. destruct P2 as [_ P2]. cbn [forallb] in P2.
        apply andb_prop in P2. destruct P2 as [_ P2].
        assert (T1 : Forall (fun t => t <> BNot) (types s1)) by (rewrite Et; constructor; assumption).
        pose proof (IH _ _ _ _ Nr P2 T1 G) as B. rewrite (neat_else _ _ Nr Logic.I) in B. exact B. }
      destruct k; cbn [alone] in P1; try discriminate P1; cbn [command] in C; try discriminate C; cbn [else_next].
      + (* if *) destruct (test_then_shape _ _ _ _ _ KIf N2 Logic.I eq_refl C) as (tr & -> & Nr & Et). change (types (with_blk (with_if [] (c_blk s)) s)) with (types s) in Et.
        destruct (Block _ BIf eq_refl Nr Et ltac:(discriminate)) as (cs & k & r & ws & -> & _ & B).
        replace (KIf :: rtree tr ++ KOpen :: rcmds cs ++ KClose k :: rrest r ++ ws) with (rcmd (CIf tr cs k r) ++ ws)
          by (cbn; rewrite <- !app_assoc; cbn; rewrite <- !app_assoc; reflexivity).
        now apply body_cons.
      + (* elsif *) assert (C' : test_then umax lim BElsIf ks s = Some (r1, s1)) by (destruct (c_last s); try discriminate C; exact C).
        destruct (test_then_shape _ _ _ _ _ KElsIf N2 Logic.I eq_refl C') as (tr & -> & Nr & Et).
        destruct (Block _ BElsIf eq_refl Nr Et ltac:(discriminate)) as (cs & k & r & ws & -> & _ & B).
        exists (RElsIf tr cs k r), ws. split; [|exact B]. cbn. rewrite <- !app_assoc. cbn. now rewrite <- !app_assoc.
      + (* else *) assert (C' : exists r', ks = KOpen :: r' /\ option_map (fun s => (r', s)) (open lim BElse None s) = Some (r1, s1)).
        { destruct (c_last s); try discriminate C; destruct ks as [|[] ks]; try discriminate C; eauto. }
        destruct C' as (r' & -> & C'). destruct (open lim BElse None s) as [s2|] eqn:O; [|discriminate]. injection C' as <- <-.
        apply neat_tail in N2. destruct (Block [] BElse eq_refl (proj2 N2) (open_types _ _ _ _ _ O) ltac:(discriminate)) as (cs & k & r & ws & -> & R & B).
        rewrite (R eq_refl) in *. exists (RElse cs k), ws. split; [|exact B]. cbn. now rewrite <- !app_assoc.
      + (* foreverypart *) destruct (Nat.eqb _ _); [discriminate|]. destruct (match label with Some n => _ | None => _ end); [discriminate|].
        destruct ks as [|[] ks]; try discriminate C. destruct (open _ _ _ _) as [s2|] eqn:O; [|discriminate]. injection C as <- <-.
        apply neat_tail in N2. destruct (Block [] BFor eq_refl (proj2 N2) (open_types _ _ _ _ _ O) ltac:(discriminate)) as (cs & k & r & ws & -> & R & B).
        rewrite (R eq_refl) in *. replace (KForEvery label :: KOpen :: rcmds cs ++ KClose k :: rrest RNone ++ ws) with (rcmd (CFor label cs k) ++ ws)
          by (cbn; rewrite <- !app_assoc; reflexivity). now apply body_cons.
      + (* while *) destruct ks as [|[] ks]; try discriminate C. destruct (open _ _ _ _) as [s2|] eqn:O; [|discriminate]. injection C as <- <-.
        apply neat_tail in N2. destruct (Block [] BWhile eq_refl (proj2 N2) (open_types _ _ _ _ _ O) ltac:(discriminate)) as (cs & k & r & ws & -> & R & B).
        rewrite (R eq_refl) in *. replace (KWhile e :: KOpen :: rcmds cs ++ KClose k :: rrest RNone ++ ws) with (rcmd (CWhile e cs k) ++ ws)
          by (cbn; rewrite <- !app_assoc; reflexivity). now apply body_cons.
      + (* break *) destruct (do_break _ _ _) as [s2|] eqn:D; [|discriminate]. injection C as <- <-.
        apply (Simple (CBreak label) eq_refl Logic.I eq_refl). eapply do_break_types; eauto.
      + (* continue *) destruct (do_continue _ _) as [[|[|[|n]]] is]; try discriminate. injection C as <- <-.
        exact (Simple CContinue eq_refl Logic.I eq_refl eq_refl).
      + injection C as <- <-. exact (Simple CReturn eq_refl Logic.I eq_refl eq_refl).
      + injection C as <- <-. exact (Simple (CAct i) eq_refl Logic.I eq_refl eq_refl).
      + injection C as <- <-. exact (Simple CQuiet eq_refl Logic.I eq_refl eq_refl).
      + injection C as <- <-. exact (Simple (CVacation t v) eq_refl Logic.I eq_refl eq_refl).
      + (* close *) destruct (close _ _ _ _) as [s2|] eqn:D; [|discriminate]. injection C as <- <-. rewrite (close_types _ _ _ _ _ D) in *.
        pose proof (IH _ _ _ _ N2 P2 (Forall_inv_tail T) G) as B. exists CNil, clear. destruct (else_next ks) eqn:En.
        * destruct B as (r & ws & -> & B). exists r, ws. split; [reflexivity|]. split; [|exact B]. intro I.
          pose proof (else_last _ _ _ _ En G) as L. destruct (close_last _ _ _ _ D (Forall_inv T) I) as [X|X]; rewrite X in L; discriminate.
        * exists RNone, ks. split; [reflexivity|]. split; [reflexivity|exact B].
  Qed.
End Commands.
