(** From the steps of a script to its meaning command by command. *)
From Coq Require Import Lia.
From Verif Require Import Base Lib Address Var Value SetVar Flags Comparator Message EditHeader Expr Event
  Notify Vacation Spam AddrTest Mime Sieve Run RunSpec RunProofs
  Compile CompileSpec CompileProofs1 ControlSpec ControlProofs1 CompileProofs5 CompileProofs6.

Lemma alike_refl s : alike s s.
Proof. reflexivity. Qed.
Lemma alike_sym s s' : alike s s' -> alike s' s.
Proof. unfold alike. auto. Qed.
Lemma alike_trans a b c : alike a b -> alike b c -> alike a c.
Proof. unfold alike. congruence. Qed.
Lemma same_alike s s' : same s s' -> alike s s'.
Proof. unfold same, alike. congruence. Qed.
Lemma alike_fields s s' : alike s s' -> parts s = parts s' /\ r_part s = r_part s'.
Proof. unfold alike. intros H. split; [apply (f_equal parts) in H|apply (f_equal r_part) in H]; exact H. Qed.
Lemma alike_part p s s' : alike s s' -> alike (w_part p s) (w_part p s').
Proof. unfold alike. intros H. apply (f_equal (w_part p)) in H. exact H. Qed.
Lemma alike_part2 p q s : w_part p (w_part q s) = w_part p s.
Proof. reflexivity. Qed.

(** A [continue] that is not inside a while of the commands themselves. *)
Fixpoint continues (c : cmd) : bool :=
  match c with
  | CIf _ b _ r => continues_all b || continues_rest r
  | CFor _ b _ => continues_all b
  | CContinue => true
  | _ => false
  end
with continues_all (cs : cmds) : bool :=
  match cs with CNil => false | CCons c cs => continues c || continues_all cs end
with continues_rest (r : rest) : bool :=
  match r with
  | RNone => false
  | RElse b _ => continues_all b
  | RElsIf _ b _ r => continues_all b || continues_rest r
  end.
(** Tests are fresh tests, and no [continue] is inside a foreverypart. *)
Fixpoint tidy (c : cmd) : bool :=
  match c with
  | CIf t b _ r => (fresh_tree t && tleaves t) && tidy_all b && tidy_rest r
  | CFor _ b _ => tidy_all b && negb (continues_all b)
  | CWhile _ b _ => tidy_all b
  | _ => true
  end
with tidy_all (cs : cmds) : bool :=
  match cs with CNil => true | CCons c cs => tidy c && tidy_all cs end
with tidy_rest (r : rest) : bool :=
  match r with
  | RNone => true
  | RElse b _ => tidy_all b
  | RElsIf t b _ r => (fresh_tree t && tleaves t) && tidy_all b && tidy_rest r
  end.

Lemma enters_inc E i x y s' : enters E i x y s' -> is_include i = true.
Proof. destruct 1; assumption. Qed.

Section Big.
  Variable E : renv.
  Variable Progs : sieve -> prog -> Prop.

  Definition code_continues (c : code) : bool :=
    match c with
    | Cmds cs | Body cs _ | Rounds cs _ _ => continues_all cs
    | Cmd c => continues c
    | Else r => continues_rest r
    | Loop _ _ _ => false
    end.
  Lemma runs_continue inl c s tr o s' : runs E Progs inl c s tr o s' -> o = LContinue -> code_continues c = true.
  Proof.
    induction 1; intros Q; subst; try discriminate; cbn [code_continues continues continues_all continues_rest] in *; auto.
    - rewrite IHruns2 by reflexivity. apply orb_true_r.
    - now rewrite IHruns by reflexivity.
    - destruct k; cbn in IHruns2; specialize (IHruns2 eq_refl); discriminate.
    - now rewrite IHruns by reflexivity.
    - rewrite IHruns by reflexivity. apply orb_true_r.
    - destruct o; cbn in Q; try discriminate; try congruence. destruct l0; try discriminate. destruct (label_eqb _ _); discriminate.
    - destruct o; cbn in Q; try discriminate; try congruence. destruct l; discriminate.
  Qed.

  Inductive srcsn : nat -> kont * rst -> list entry -> kont * rst -> Prop :=
  | srcsn_nil x : srcsn 0 x [] x
  | srcsn_cons n x y z tr tr' : src E Progs x tr y -> srcsn n y tr' z -> srcsn (S n) x (tr ++ tr') z.
  Lemma srcs_n x tr y : srcs E Progs x tr y -> exists n, srcsn n x tr y.
  Proof. induction 1 as [|x y z tr tr' A B [n IH]]; [exists 0; constructor|]. exists (S n). econstructor; eauto. Qed.

  Definition final (c : kont * rst) : Prop := fst c = Halt \/ fst c = Run_ [].
  Lemma from_halt n : forall s tr c, srcsn n (Halt, s) tr c -> tr = [] /\ fst c = Halt.
  Proof.
    induction n as [|n IH]; intros s tr c H; inversion H; subst; [auto|].
    match goal with A : src _ _ _ _ _ |- _ => inversion A; subst; try discriminate end.
    match goal with A : srcsn _ _ _ _ |- _ => apply IH in A as [-> ?] end. auto.
  Qed.

  (** What follows a command that ended with [o]. *)
  Definition follows (ts : list task) (o : leaving) (s : rst) (n : nat) (tr : list entry) (c : kont * rst) : Prop :=
    match o with
    | LNext => srcsn n (Run_ ts, s) tr c
    | LBreak (Some l) => exists ts' p s', leave_named l ts = Some (ts', p) /\ alike (w_part p s) s' /\ srcsn n (Run_ ts', s') tr c
    | LBreak None => exists ts' p s', leave_loop ts = Some (ts', p) /\ alike (go_part p s) s' /\ srcsn n (Run_ ts', s') tr c
    | LContinue => exists ts' s', restart ts = Some ts' /\ alike s s' /\ srcsn n (Run_ ts', s') tr c
    | LReturn => exists s', alike (go_part (first_part ts) s) s' /\ srcsn n (Run_ (KDo IxReturn :: after ts), s') tr c
    | LHalt => tr = [] /\ fst c = Halt
    end.
  Lemma follows_skip t ts o s n tr c : o <> LNext -> (match t with KFor _ _ _ _ _ | KLoop _ _ _ | KLeave => False | _ => True end) ->
    follows (t :: ts) o s n tr c -> follows ts o s n tr c.
  Proof. intros N T. destruct o as [|[l|]| | |], t; try contradiction; cbn; auto; try congruence. Qed.

  Lemma sees_view k s x : sees k s x -> view (in_loop k) s x.
  Proof. intros [A B]. split; [now apply same_alike|exact B]. Qed.

  (** *** Tests *)
  Definition dec_follows (r : option (bool * rst)) (yes no : kont) (n : nat) (tr : list entry) (c : kont * rst) : Prop :=
    match r with
    | Some (b, s1) => srcsn n (if b : bool then yes else no, s1) tr c
    | None => tr = [] /\ fst c = Halt
    end.
  Definition test_goal (N : nat) (inl n : bool) (t : tree) (yes no : kont) (s : rst) (tr : list entry) (c : kont * rst) : Prop :=
    exists M l tr1 tr2 r, M < N /\ tr = tr1 ++ tr2 /\ decides E inl t s l tr1 r /\ dec_follows r yes no M tr2 c.

  Lemma leaf_sound N : forall inl n t i yes no s tr c, leaf_of t = Some i -> fresh i = true -> is_test i = true -> in_loop yes = inl ->
    head (Test_ n t yes no) = Some (if n then set_not i else i, fun b => if xorb b n then yes else no) ->
    srcsn N (Test_ n t yes no, s) tr c -> final c -> test_goal N inl n t yes no s tr c.
  Proof.
    induction N as [|N IH]; intros inl n t i yes no s tr c L Fr It I1 Hd H F; inversion H; subst.
    { destruct F as [F|F]; discriminate F. }
    match goal with A : src _ _ _ _ _, B : srcsn N _ _ _ |- _ => rename A into St; rename B into Re end.
    assert (JJ : (if n then set_not i else i) = i \/ (if n then set_not i else i) = set_not i) by (destruct n; auto).
    inversion St; subst; try discriminate L;
      repeat match goal with A : head ?k = Some (?a, ?b) |- _ => rewrite Hd in A; injection A as <- <- end.
    - match goal with A : sees _ _ _ |- _ => apply sees_view in A as V end. cbn [in_loop] in V.
      match goal with A : does _ _ _ true _ |- _ => rename A into D end.
      destruct n.
      + destruct i; try discriminate It.
        * exists N, [(IxTest t0, r_test (flip s'))], [(set_not (IxTest t0), x)], tr', (Some (r_test (flip s'), s')).
          split; [lia|]. split; [reflexivity|]. split.
          -- eapply de_leaf; [exact L|exact V|]. apply tested_not; [now apply not_does|apply alike_sym, alike_flip].
          -- cbn. cbn in Re. rewrite xorb_true_r in Re. exact Re.
        * exists N, [(IxEval code, negb (r_test s'))], [(set_not (IxEval code), x)], tr', (Some (negb (r_test s'), s')).
          split; [lia|]. split; [reflexivity|]. split.
          -- eapply de_leaf; [exact L|exact V|]. cbn [set_not] in *. now apply tested_eval.
          -- cbn. cbn in Re. rewrite xorb_true_r in Re. exact Re.
      + exists N, [(i, r_test s')], [(i, x)], tr', (Some (r_test s', s')).
        split; [lia|]. split; [reflexivity|]. split.
        * eapply de_leaf; [exact L|exact V|]. now apply tested_plain.
        * cbn. cbn in Re. rewrite xorb_false_r in Re. exact Re.
    - match goal with A : sees _ _ _ |- _ => apply sees_view in A as V end. cbn [in_loop] in V.
      destruct (IH _ _ _ _ _ _ _ _ _ L Fr It eq_refl Hd Re F) as (M & l & tr1 & tr2 & r & ML & -> & De & Fo).
      exists M, l, ((if n then set_not i else i, x) :: tr1), tr2, r. split; [lia|]. split; [reflexivity|]. split; [|exact Fo].
      eapply de_wait; eauto.
    - match goal with A : sees _ _ _ |- _ => apply sees_view in A as V end. cbn [in_loop] in V.
      apply from_halt in Re as [-> Fh].
      exists 0, [], [(if n then set_not i else i, x)], [], None. split; [lia|]. split; [now rewrite app_nil_r|]. split; [|now split].
      eapply de_halt; eauto.
    - match goal with A : enters _ _ _ _ _ |- _ => apply enters_inc in A; rewrite test_include in A by assumption; discriminate A end.
    - destruct (IH _ _ _ _ _ _ _ _ _ L Fr It eq_refl Hd Re F) as (M & l & tr1 & tr2 & r & ML & -> & De & Fo).
      exists M, l, tr1, tr2, r. split; [lia|]. split; [reflexivity|]. split; [|exact Fo].
      eapply de_alike; [apply same_alike; eassumption|exact De].
  Qed.

  Lemma skip (k : kont) (P : rst -> list entry -> kont * rst -> Prop) :
    (forall s tr y, src E Progs (k, s) tr y -> (tr = [] /\ exists s', y = (k, s') /\ same s s') \/ P s tr y) ->
    k <> Halt -> k <> Run_ [] ->
    forall N s tr c, srcsn N (k, s) tr c -> final c ->
    exists M s0 tr0 y tr', M < N /\ alike s s0 /\ P s0 tr0 y /\ tr = tr0 ++ tr' /\ srcsn M y tr' c.
  Proof.
    intros HP N1 N2. induction N as [|N IH]; intros s tr c H F; inversion H; subst.
    { destruct F as [F|F]; cbn in F; congruence. }
    match goal with A : src _ _ _ _ _, B : srcsn N _ _ _ |- _ => rename A into St; rename B into Re end.
    destruct (HP _ _ _ St) as [(-> & s' & -> & Sm)|HQ].
    - destruct (IH _ _ _ Re F) as (M & s0 & tr1 & y & tr2 & L & A & B & C & D).
      exists M, s0, tr1, y, tr2. split; [lia|]. split; [|auto]. eapply alike_trans; [apply same_alike; exact Sm|exact A].
    - eexists N, s, _, _, _. split; [lia|]. split; [reflexivity|]. split; [exact HQ|]. split; [reflexivity|exact Re].
  Qed.
  Lemma test_sound :
    forall t, fresh_tree t = true -> tleaves t = true ->
    forall N inl n yes no s tr c, in_loop yes = inl -> in_loop no = inl ->
      srcsn N (Test_ n t yes no, s) tr c -> final c -> test_goal N inl n t yes no s tr c.
  Proof.
    enough (X : (forall t, fresh_tree t = true -> tleaves t = true ->
      forall N inl n yes no s tr c, in_loop yes = inl -> in_loop no = inl ->
        srcsn N (Test_ n t yes no, s) tr c -> final c -> test_goal N inl n t yes no s tr c) /\
      (forall ts, fresh_trees ts = true -> tleaves_all ts = true ->
      forall N inl n yes no s tr c (all : bool), in_loop yes = inl -> in_loop no = inl ->
        srcsn N (Test_ n (if all then TAll ts else TAny ts) yes no, s) tr c -> final c ->
        test_goal N inl n (if all then TAll ts else TAny ts) yes no s tr c)) by exact (proj1 X).
    apply tree_ind2.
    - intros b Fr L N inl n yes no s tr c I1 I2 H F.
      eapply (leaf_sound N inl n (TConst b) (IxTest (if b then TeTrue else TeFalse))); eauto; try reflexivity.
      + now destruct b.
      + cbn. destruct b, n; reflexivity.
    - intros i Fr L N inl n yes no s tr c I1 I2 H F.
      eapply (leaf_sound N inl n (TLeaf i) i); eauto; reflexivity.
    - intros t IH Fr L N inl n yes no s tr c I1 I2 H F.
      destruct (skip (Test_ n (TNot t) yes no) (fun s tr y => tr = [] /\ exists s', y = (Test_ (negb n) t no yes, s') /\ same s s'))
        with (4 := H) (5 := F) as (M & s0 & tr0 & y & tr' & ML & A & (-> & s' & -> & Sm) & -> & Re); try discriminate.
      { intros s1 tr1 y St. inversion St; subst; try discriminate; eauto. }
      destruct (IH Fr L M inl _ _ _ _ _ _ I2 I1 Re F) as (M' & l & tr1 & tr2 & r & ML' & -> & De & Fo).
      eexists M', l, tr1, tr2, _. split; [lia|]. split; [reflexivity|]. split.
      + eapply de_alike; [eapply alike_trans; [exact A|apply same_alike; exact Sm]|]. apply de_not. exact De.
      + destruct r as [[b s1]|]; cbn in *; [|exact Fo]. destruct b; exact Fo.
    - intros ts IH Fr L N inl n yes no s tr c I1 I2 H F. exact (IH Fr L N inl n yes no s tr c false I1 I2 H F).
    - intros ts IH Fr L N inl n yes no s tr c I1 I2 H F. exact (IH Fr L N inl n yes no s tr c true I1 I2 H F).
    - intros t IH Fr L N inl n yes no s tr c all I1 I2 H F. cbn in Fr, L. destruct all.
      + destruct (skip (Test_ n (TAll (TOne t)) yes no) (fun s tr y => tr = [] /\ exists s', y = (Test_ n t yes no, s') /\ same s s'))
          with (4 := H) (5 := F) as (M & s0 & tr0 & y & tr' & ML & A & (-> & s' & -> & Sm) & -> & Re); try discriminate.
        { intros s1 tr1 y St. inversion St; subst; try discriminate; eauto. }
        destruct (IH Fr L M inl _ _ _ _ _ _ I1 I2 Re F) as (M' & l & tr1 & tr2 & r & ML' & -> & De & Fo).
        eexists M', l, tr1, tr2, _. split; [lia|]. split; [reflexivity|]. split; [|exact Fo].
        eapply de_alike; [eapply alike_trans; [exact A|apply same_alike; exact Sm]|]. apply de_all1. exact De.
      + destruct (skip (Test_ n (TAny (TOne t)) yes no) (fun s tr y => tr = [] /\ exists s', y = (Test_ n t yes no, s') /\ same s s'))
          with (4 := H) (5 := F) as (M & s0 & tr0 & y & tr' & ML & A & (-> & s' & -> & Sm) & -> & Re); try discriminate.
        { intros s1 tr1 y St. inversion St; subst; try discriminate; eauto. }
        destruct (IH Fr L M inl _ _ _ _ _ _ I1 I2 Re F) as (M' & l & tr1 & tr2 & r & ML' & -> & De & Fo).
        eexists M', l, tr1, tr2, _. split; [lia|]. split; [reflexivity|]. split; [|exact Fo].
        eapply de_alike; [eapply alike_trans; [exact A|apply same_alike; exact Sm]|]. apply de_any1. exact De.
    - intros t IH ts IHs Fr L N inl n yes no s tr c all I1 I2 H F. cbn in Fr, L.
      apply andb_true_iff in Fr as [Fr1 Fr2]. apply andb_true_iff in L as [L1 L2]. destruct all.
      + destruct (skip (Test_ n (TAll (TMore t ts)) yes no) (fun s tr y => tr = [] /\ exists s', y = (Test_ n t (Test_ n (TAll ts) yes no) no, s') /\ same s s'))
          with (4 := H) (5 := F) as (M & s0 & tr0 & y & tr' & ML & A & (-> & s' & -> & Sm) & -> & Re); try discriminate.
        { intros s1 tr1 y St. inversion St; subst; try discriminate; eauto. }
        assert (I3 : in_loop no = in_loop yes) by congruence.
        destruct (IH Fr1 L1 M (in_loop yes) n (Test_ n (TAll ts) yes no) no s' tr' c eq_refl I3 Re F) as (M' & l & tr1 & tr2 & r & ML' & -> & De & Fo).
        pose proof (alike_trans _ _ _ A (same_alike _ _ Sm)) as Al.
        destruct r as [[[] s1]|]; cbn in Fo.
        * destruct (IHs Fr2 L2 M' inl n yes no s1 tr2 c true I1 I2 Fo F) as (M2 & l2 & tr3 & tr4 & r & ML2 & -> & De2 & Fo2).
          exists M2, (l ++ l2), (tr1 ++ tr3), tr4, r. split; [lia|]. split; [cbn; apply app_assoc|]. split; [|exact Fo2].
          eapply de_alike; [exact Al|]. subst inl. eapply de_all_next; eauto.
        * exists M', l, tr1, tr2, (Some (false, s1)). split; [lia|]. split; [reflexivity|]. split; [|exact Fo].
          eapply de_alike; [exact Al|]. subst inl. now apply de_all_false.
        * exists M', l, tr1, tr2, None. split; [lia|]. split; [reflexivity|]. split; [|exact Fo].
          eapply de_alike; [exact Al|]. subst inl. now apply de_all_halt.
      + destruct (skip (Test_ n (TAny (TMore t ts)) yes no) (fun s tr y => tr = [] /\ exists s', y = (Test_ n t yes (Test_ n (TAny ts) yes no), s') /\ same s s'))
          with (4 := H) (5 := F) as (M & s0 & tr0 & y & tr' & ML & A & (-> & s' & -> & Sm) & -> & Re); try discriminate.
        { intros s1 tr1 y St. inversion St; subst; try discriminate; eauto. }
        destruct (IH Fr1 L1 M (in_loop yes) n yes (Test_ n (TAny ts) yes no) s' tr' c eq_refl eq_refl Re F) as (M' & l & tr1 & tr2 & r & ML' & -> & De & Fo).
        pose proof (alike_trans _ _ _ A (same_alike _ _ Sm)) as Al.
        destruct r as [[[] s1]|]; cbn in Fo.
        * exists M', l, tr1, tr2, (Some (true, s1)). split; [lia|]. split; [reflexivity|]. split; [|exact Fo].
          eapply de_alike; [exact Al|]. subst inl. now apply de_any_true.
        * destruct (IHs Fr2 L2 M' inl n yes no s1 tr2 c false I1 I2 Fo F) as (M2 & l2 & tr3 & tr4 & r & ML2 & -> & De2 & Fo2).
          exists M2, (l ++ l2), (tr1 ++ tr3), tr4, r. split; [lia|]. split; [cbn; apply app_assoc|]. split; [|exact Fo2].
          eapply de_alike; [exact Al|]. subst inl. eapply de_any_next; eauto.
        * exists M', l, tr1, tr2, None. split; [lia|]. split; [reflexivity|]. split; [|exact Fo].
          eapply de_alike; [exact Al|]. subst inl. now apply de_any_halt.
  Qed.

  (** *** Instructions *)
  Lemma head_sound i next k : is_include i = false -> head k = Some (i, next) -> forall N s tr c, srcsn N (k, s) tr c -> final c ->
    exists M tr1 tr2 r, M < N /\ tr = tr1 ++ tr2 /\ executes E (in_loop k) i s tr1 r /\
      match r with Some s1 => srcsn M (next (r_test s1), s1) tr2 c | None => tr2 = [] /\ fst c = Halt end.
  Proof.
    intros NI Hd. induction N as [|N IH]; intros s tr c H F; inversion H; subst.
    { destruct F as [F|F]; cbn in F; subst k; discriminate. }
    match goal with A : src _ _ _ _ _, B : srcsn N _ _ _ |- _ => rename A into St; rename B into Re end.
    inversion St; subst; try discriminate Hd;
      repeat match goal with A : head ?k = Some (?a, ?b), B : head ?k = Some (_, _) |- _ => rewrite A in B; injection B as <- <- end.
    - eexists N, [(_, x)], _, (Some s'). split; [lia|]. split; [reflexivity|]. split; [|exact Re].
      apply ex_done; [now apply sees_view|assumption].
    - destruct (IH _ _ _ Re F) as (M & tr1 & tr2 & r & L & -> & Ex & Fo).
      eexists M, (_ :: tr1), tr2, r. split; [lia|]. split; [reflexivity|]. split; [|exact Fo].
      eapply ex_wait; [apply sees_view; eassumption|eassumption|exact Ex].
    - apply from_halt in Re as [-> Fh]. eexists 0, [(_, x)], [], None. split; [lia|]. split; [now rewrite app_nil_r|]. split; [|auto].
      apply ex_halt; [now apply sees_view|assumption].
    - match goal with A : enters _ _ _ _ _ |- _ => apply enters_inc in A; congruence end.
    - destruct (IH _ _ _ Re F) as (M & tr1 & tr2 & r & L & -> & Ex & Fo).
      eexists M, tr1, tr2, r. split; [lia|]. split; [reflexivity|]. split; [|exact Fo].
      eapply ex_alike; [apply same_alike; eassumption|exact Ex].
  Qed.

  Lemma cond_sound e b k ts N : forall s tr c, srcsn N (Run_ (KLoop e b k :: ts), s) tr c -> final c ->
    exists M r, M < N /\ condition E (in_for ts) e s r /\
      match r with
      | Some (true, s1) => srcsn M (Run_ (block b k (KLoop e b k :: ts)), s1) tr c
      | Some (false, s1) => srcsn M (Run_ ts, s1) tr c
      | None => tr = [] /\ fst c = Halt
      end.
  Proof.
    induction N as [|N IH]; intros s tr c H F; inversion H; subst.
    { destruct F as [F|F]; discriminate F. }
    match goal with A : src _ _ _ _ _, B : srcsn N _ _ _ |- _ => rename A into St; rename B into Re end.
    inversion St; subst; try discriminate; try (match goal with A : head _ = Some _ |- _ => discriminate A end).
    - exists N, (Some (to_bool v, s')). split; [lia|]. split.
      + eapply co_value; [match goal with A : sees _ _ _ |- _ => apply (sees_view (Run_ ts)) in A; exact A end|eassumption|apply same_alike; assumption].
      + destruct (to_bool v); exact Re.
    - apply from_halt in Re as [-> Fh]. exists 0, None. split; [lia|]. split; [|auto].
      eapply co_halt; [match goal with A : sees _ _ _ |- _ => apply (sees_view (Run_ ts)) in A; exact A end|eassumption].
    - destruct (IH _ _ _ Re F) as (M & r & L & Co & Fo). exists M, r. split; [lia|]. split; [|exact Fo].
      eapply co_wait; [match goal with A : sees _ _ _ |- _ => apply (sees_view (Run_ ts)) in A; exact A end|eassumption|exact Co].
    - destruct (IH _ _ _ Re F) as (M & r & L & Co & Fo). exists M, r. split; [lia|]. split; [|exact Fo].
      eapply co_alike; [apply same_alike; eassumption|exact Co].
  Qed.
End Big.
