(** Conditionals, loops and whole scripts, taken apart. *)
From Coq Require Import Lia Sorting.Sorted.
From Verif Require Import Base Lib Address Var Value SetVar Flags Comparator Message MessageSpec MessageProofs EditHeader Expr Event
  Notify Vacation Spam AddrTest Mime Sieve Run RunSpec RunProofs Compile CompileSpec CompileProofs1 CompileProofs2 CompileProofs4 CompileProofs5 ControlSpec
  ControlProofs1 ControlProofs2 ControlProofs3 ControlProofs4 ControlProofs5.

Section Parts.
  Variable E : renv.
  Variable Progs : sieve -> prog -> Prop.

  Lemma conditional inl t b k r s tr o s' : runs E Progs inl (Cmd (CIf t b k r)) s tr o s' ->
    exists l tests after d,
      tr = tests ++ after /\ decides E inl t s l tests d /\
      match d with
      | None => after = [] /\ o = LHalt
      | Some (v, s1) => runs E Progs inl (if v then Body b k else Else r) s1 after o s' /\
          (forall w, w (IxTest TeTrue) = true -> w (IxTest TeFalse) = false -> agrees w l ->
             v = truth w t /\ map fst l = consulted w t)
      end.
  Proof.
    remember (Cmd (CIf t b k r)) as C. intros H. revert HeqC. induction H; intros Q; try discriminate.
    - destruct (IHruns Q) as (l & te & af & d & Q1 & D & R). exists l, te, af, d. split; [exact Q1|]. split; [eapply de_alike; eauto|exact R].
    - injection Q as -> -> -> ->. exists l, tr, tr', (Some (true, s1)). split; [reflexivity|]. split; [assumption|]. split; [assumption|].
      intros w A B C. eapply decides_truth; eauto.
    - injection Q as -> -> -> ->. exists l, tr, tr', (Some (false, s1)). split; [reflexivity|]. split; [assumption|]. split; [assumption|].
      intros w A B C. eapply decides_truth; eauto.
    - injection Q as -> -> -> ->. exists l, tr, [], None. rewrite app_nil_r. auto.
  Qed.

  Lemma cmds_inv inl cs s tr o s' : runs E Progs inl (Cmds cs) s tr o s' ->
    match cs with
    | CNil => tr = [] /\ o = LNext /\ alike s s'
    | CCons c cs => (exists tr1 tr2 s1, tr = tr1 ++ tr2 /\ runs E Progs inl (Cmd c) s tr1 LNext s1 /\ runs E Progs inl (Cmds cs) s1 tr2 o s') \/
                    (o <> LNext /\ runs E Progs inl (Cmd c) s tr o s')
    end.
  Proof.
    remember (Cmds cs) as C. intros H. revert HeqC. induction H; intros Q; try discriminate.
    - specialize (IHruns Q). destruct cs as [|c1 cs].
      + destruct IHruns as (A & B & D). split; [exact A|]. split; [exact B|]. eapply alike_trans; eauto.
      + destruct IHruns as [(tr1 & tr2 & s1 & A & B & D)|[A B]].
        * left. exists tr1, tr2, s1. split; [exact A|]. split; [eapply rn_alike; eauto|exact D].
        * right. split; [exact A|]. eapply rn_alike; eauto.
    - injection Q as <-. auto.
    - injection Q as <-. left. eauto 6.
    - injection Q as <-. right. auto.
  Qed.
  Lemma body_inv inl b s tr o s' : runs E Progs inl (Body b None) s tr o s' -> runs E Progs inl (Cmds b) s tr o s' \/
    (o = LNext /\ exists s1, runs E Progs inl (Cmds b) s tr o s1).
  Proof.
    remember (Body b None) as C. intros H. revert HeqC. induction H; intros Q; try discriminate.
    - destruct (IHruns Q) as [A|(A & s3 & B)].
      + left. eapply rn_alike; eauto.
      + right. split; [exact A|]. exists s3. eapply rn_alike; eauto.
    - injection Q as -> ->. apply cmds_inv in H0 as (-> & -> & A). rewrite app_nil_r. right. eauto.
    - injection Q as -> ->. auto.
  Qed.
  Lemma act_inv inl i s tr o s' : is_include i = false -> runs E Progs inl (Cmd (CAct i)) s tr o s' -> exists r, executes E inl i s tr r.
  Proof.
    intros NI. remember (Cmd (CAct i)) as C. intros H. revert HeqC.
    induction H; intros Q; try discriminate; try (injection Q as ->; eauto);
      try (match goal with A : enters _ _ _ _ _ |- _ => apply enters_inc in A; congruence end).
    destruct (IHruns Q) as [r A]. exists r. eapply ex_alike; eauto.
  Qed.
  Lemma act_leaving inl i s tr o s' : runs E Progs inl (Cmd (CAct i)) s tr o s' -> o = LNext \/ o = LHalt.
  Proof. remember (Cmd (CAct i)) as C. intros H. revert HeqC. induction H; intros Q; try discriminate; auto. Qed.
  Lemma else_inv inl b s tr o s' : runs E Progs inl (Else (RElse b None)) s tr o s' -> runs E Progs inl (Body b None) s tr o s'.
  Proof.
    remember (Else (RElse b None)) as C. intros H. revert HeqC. induction H; intros Q; try discriminate.
    - eapply rn_alike; eauto.
    - injection Q as -> ->. assumption.
  Qed.
  Lemma one_inv inl i s tr o s' : is_include i = false -> runs E Progs inl (Body (CCons (CAct i) CNil) None) s tr o s' ->
    (exists r, executes E inl i s tr r) /\ (o = LNext \/ o = LHalt).
  Proof.
    intros NI H. assert (X : exists s1, runs E Progs inl (Cmds (CCons (CAct i) CNil)) s tr o s1).
    { apply body_inv in H as [H|[_ H]]; eauto. }
    destruct X as [s1 X]. apply cmds_inv in X as [(tr1 & tr2 & s2 & -> & A & B)|[_ A]].
    - apply cmds_inv in B as (-> & -> & _). rewrite app_nil_r. split; [eapply act_inv; eauto|auto].
    - split; [eapply act_inv; eauto|eapply act_leaving; eauto].
  Qed.

  Lemma for_whole inl l b k s tr o s' : runs E Progs inl (Cmd (CFor l b k)) s tr o s' ->
    well_formed (parts s) -> in_document_order (parts s) -> r_part s < length (parts s) ->
    (r_part s = 0 -> forall i, i < length (parts s) -> reaches (parts s) 0 i) ->
    exists ids done,
      StronglySorted lt ids /\
      (forall i, In i ids <-> reaches (parts s) (r_part s) i /\ (inl = false \/ i <> r_part s)) /\
      tr = concat (map snd done) /\ r_part s' = r_part s /\
      ((o = LNext /\ map fst done = ids /\ exists s1, each E Progs b k done s s1 /\ alike (w_part (r_part s) s1) s') \/
       (exists before id tr1 after s1 s2 o1, done = before ++ [(id, tr1)] /\ ids = map fst before ++ id :: after /\
          each E Progs b k before s s1 /\ runs E Progs true (Body b k) (w_part id s1) tr1 o1 s2 /\ o1 <> LNext /\ o1 <> LContinue /\
          o = past_for l o1 /\ alike (w_part (r_part s) s2) s')).
  Proof.
    intros H W D L R. destruct (nested_ids_exact (parts s) (r_part s) (negb inl) W L R) as (ids & N & _ & M).
    destruct (for_split E Progs inl _ s tr o s' H l b k ids eq_refl N) as (done & A & B & C).
    exists ids, done. split; [eapply nested_sorted; eauto|]. split; [|auto].
    intros i. rewrite M. destruct inl; cbn; intuition congruence.
  Qed.

  (** A [break] of the body is taken by the loop it names. *)
  Lemma break_inv inl l s tr o s' : runs E Progs inl (Cmd (CBreak l)) s tr o s' -> tr = [] /\ o = LBreak l /\ alike s s'.
  Proof.
    remember (Cmd (CBreak l)) as C. intros H. revert HeqC. induction H; intros Q; try discriminate.
    - destruct (IHruns Q) as (A & B & D). split; [exact A|]. split; [exact B|]. eapply alike_trans; eauto.
    - injection Q as ->. auto.
  Qed.

  Lemma continue_one inl s tr o s' : runs E Progs inl (Cmd CContinue) s tr o s' -> tr = [] /\ o = LContinue /\ alike s s'.
  Proof.
    remember (Cmd CContinue) as C. intros H. revert HeqC. induction H; intros Q; try discriminate.
    - destruct (IHruns Q) as (A & B & D). split; [exact A|]. split; [exact B|]. eapply alike_trans; eauto.
    - auto.
  Qed.
  Lemma continue_inv inl cs s tr o s' : runs E Progs inl (Cmds (CCons CContinue cs)) s tr o s' -> tr = [] /\ o = LContinue /\ alike s s'.
  Proof.
    intros H. apply cmds_inv in H as [(tr1 & tr2 & s1 & _ & A & _)|[_ A]]; apply continue_one in A as (Q & R & S); [discriminate|auto].
  Qed.
  Lemma again_alike inl e b k l s s' s2 : alike s s' -> again E Progs inl e b k l s' s2 -> again E Progs inl e b k l s s2.
  Proof.
    intros A H. destruct H.
    - constructor. eapply alike_trans; eauto.
    - econstructor; eauto. eapply co_alike; eauto.
  Qed.
  Lemma loop_split inl c s tr o s' : runs E Progs inl c s tr o s' -> forall e b k, c = Loop e b k ->
     exists rounds last s1, tr = concat rounds ++ last /\ again E Progs inl e b k rounds s s1 /\
       ((last = [] /\ o = LNext /\ condition E inl e s1 (Some (false, s'))) \/
        (last = [] /\ o = LHalt /\ condition E inl e s1 None) \/
        (exists s2 o1 s3, condition E inl e s1 (Some (true, s2)) /\ runs E Progs inl (Body b k) s2 last o1 s3 /\
           o1 <> LNext /\ o1 <> LContinue /\ o = past_while o1 /\ alike s3 s')).
  Proof.
    induction 1; intros e0 b0 k0 Q; try discriminate.
    - destruct (IHruns _ _ _ Q) as (ro & la & s1 & A & B & C). exists ro, la, s1. split; [exact A|]. split; [eapply again_alike; eauto|exact C].
    - injection Q as -> -> ->. exists [], [], s. split; [reflexivity|]. split; [constructor; reflexivity|]. auto.
    - injection Q as -> -> ->. destruct (IHruns2 _ _ _ eq_refl) as (ro & la & s3 & A & B & C).
      exists (tr :: ro), la, s3. split; [cbn; rewrite A; apply app_assoc|]. split; [econstructor; eauto|exact C].
    - injection Q as -> -> ->. exists [], tr, s. split; [reflexivity|]. split; [constructor; reflexivity|]. right. right. exists s1, o, s2. auto 10.
    - injection Q as -> -> ->. exists [], [], s. split; [reflexivity|]. split; [constructor; reflexivity|]. auto.
  Qed.
  Lemma while_split inl e b k s tr o s' : runs E Progs inl (Cmd (CWhile e b k)) s tr o s' ->
     exists rounds last s1, tr = concat rounds ++ last /\ again E Progs inl e b k rounds s s1 /\
       ((last = [] /\ o = LNext /\ condition E inl e s1 (Some (false, s'))) \/
        (last = [] /\ o = LHalt /\ condition E inl e s1 None) \/
        (exists s2 o1 s3, condition E inl e s1 (Some (true, s2)) /\ runs E Progs inl (Body b k) s2 last o1 s3 /\
           o1 <> LNext /\ o1 <> LContinue /\ o = past_while o1 /\ alike s3 s')).
  Proof.
    remember (Cmd (CWhile e b k)) as C. intros H. revert HeqC. induction H; intros Q; try discriminate.
    - destruct (IHruns Q) as (ro & la & s1 & A & B & D). exists ro, la, s1. split; [exact A|]. split; [eapply again_alike; eauto|exact D].
    - injection Q as -> -> ->. eapply loop_split; eauto.
  Qed.
End Parts.

Lemma first_command E Progs p c cs s tr : p_require p = [] -> p_cmds p = CCons c cs -> script_runs E Progs p s tr ->
  exists tr1 tr2 o s1, tr = tr1 ++ tr2 /\ runs E Progs false (Cmd c) s tr1 o s1 /\
    match o with LNext => exists o' s', runs E Progs false (Cmds cs) s1 tr2 o' s' \/ exists tr3 tr4 s2 r, tr2 = tr3 ++ tr4 /\ runs E Progs false (Cmds cs) s1 tr3 LReturn s2 /\ executes E false IxReturn s2 tr4 r
    | LReturn => exists r, executes E false IxReturn s1 tr2 r
    | _ => tr2 = [] end.
Proof.
  intros P C H. destruct H as [tr o s' H F|tr s1 tr' r H X]; unfold script_cmds in H; rewrite P, C in H; apply cmds_inv in H.
  - destruct H as [(tr1 & tr2 & s1 & -> & A & B)|[N A]].
    + exists tr1, tr2, LNext, s1. eauto 6.
    + exists tr, [], o, s'. rewrite app_nil_r. destruct F as [->| ->]; [contradiction|]. auto.
  - destruct H as [(tr1 & tr2 & s2 & -> & A & B)|[N A]].
    + exists tr1, (tr2 ++ tr'), LNext, s2. rewrite app_assoc. split; [reflexivity|]. split; [exact A|].
      exists LReturn, s1. right. exists tr2, tr', s1, r. auto.
    + exists tr, tr', LReturn, s1. split; [reflexivity|]. split; [exact A|]. eauto.
Qed.

Lemma gtree_include t : forall p n i, tleaves t = true -> In i (gtree p n t) -> is_include i = false.
Proof.
  revert t. enough (X : (forall t p n i, tleaves t = true -> In i (gtree p n t) -> is_include i = false) /\
    (forall ts p q b n i, tleaves_all ts = true -> In i (gtrees p q b n ts) -> is_include i = false)) by apply X.
  apply tree_ind2.
  - intros c p n i _ [<-|[]]. destruct (xorb c n); reflexivity.
  - intros j p n i L [<-|[]]. now apply test_include.
  - intros t IH p n i L I. exact (IH _ _ _ L I).
  - intros ts IH p n i L I. exact (IH _ _ _ _ _ L I).
  - intros ts IH p n i L I. exact (IH _ _ _ _ _ L I).
  - intros t IH p q b n i L I. exact (IH _ _ _ L I).
  - intros t ts IH IHs p q b n i L I. cbn in L. apply andb_true_iff in L as [L1 L2]. cbn in I.
    repeat (apply in_app_or in I as [I|I]); eauto.
    destruct I as [<-|I]; [destruct b; reflexivity|]. eauto.
Qed.

Lemma if_else E umax lim t yes no n x m size c rest :
  let p := {| p_require := [];
              p_cmds := CCons (CIf t (CCons (CAct yes) CNil) None (RElse (CCons (CAct no) CNil) None)) CNil |} in
  ok_prog lim p = true -> fresh_tree t = true -> is_include yes = false -> is_include no = false ->
  compile umax lim (rprog p) = Some (s_code x) ->
  s_match_vars x <= 63 -> s_vars x <= 256 -> Forall no_script rest ->
  let s0 := initial m size c in
  let log := g_log (log_of E (InScript n x :: rest) s0) in
  length log < E_cpu E ->
  exists l tests after r,
    visible log = tests ++ after /\ decides E false t (feed (InScript n x) s0) l tests r /\
    match r with
    | None => after = []
    | Some (b, s1) =>
        (exists r1, executes E false (if b then yes else no) s1 after r1) /\
        (forall v, v (IxTest TeTrue) = true -> v (IxTest TeFalse) = false -> agrees v l ->
           b = truth v t /\ map fst l = consulted v t)
    end.
Proof.
  intros p O Fr Iy In_ Cm Mv Lv F s0 log Lt.
  set (Progs := written umax).
  assert (Fc : fresh_cmds (p_cmds p) = true) by (cbn; rewrite Fr; reflexivity).
  assert (Kn : scripts_known E Progs x).
  { intros (i & Ii & Ic). exfalso. pose proof Cm as Cm'. rewrite (compile_layout umax lim p O) in Cm'. injection Cm' as Cm'. rewrite <- Cm' in Ii.
    assert (Ol : tleaves t = true) by (cbn in O; repeat (apply andb_true_iff in O as [O _]); exact O).
    cbn in Ii. rewrite ?app_nil_r in Ii. repeat (apply in_app_or in Ii as [Ii|Ii]; [|]).
    all: try (cbn in Ii; repeat (destruct Ii as [<-|Ii]; [discriminate Ic || congruence|]); destruct Ii).
    all: match goal with I : In _ (gtree _ _ _) |- _ => rewrite (gtree_include t _ _ _ Ol I) in Ic; discriminate Ic end. }
  pose proof (script_meaning E Progs umax p n x m size c rest (fun y q H => H)
    (ex_intro _ lim (conj O (conj Fc Cm))) (conj Mv Lv) Kn (no_scripts_host E Progs n x rest _ F) Lt) as H. fold s0 log in H.
  assert (G : forall tr o s', runs E Progs false (Cmd (CIf t (CCons (CAct yes) CNil) None (RElse (CCons (CAct no) CNil) None)))
      (feed (InScript n x) s0) tr o s' -> (o = LNext \/ o = LHalt) /\
    exists l tests after r, tr = tests ++ after /\ decides E false t (feed (InScript n x) s0) l tests r /\
    match r with
    | None => after = []
    | Some (b, s1) =>
        (exists r1, executes E false (if b then yes else no) s1 after r1) /\
        (forall v, v (IxTest TeTrue) = true -> v (IxTest TeFalse) = false -> agrees v l ->
           b = truth v t /\ map fst l = consulted v t)
    end).
  { intros tr o s' R. apply conditional in R as (l & te & af & d & -> & D & Z). destruct d as [[b s1]|].
    - destruct Z as [Z T]. assert (Y : (exists r, executes E false (if b then yes else no) s1 af r) /\ (o = LNext \/ o = LHalt)).
      { destruct b; [|apply else_inv in Z]; eapply one_inv; eauto. }
      destruct Y as [Y1 Y2]. split; [exact Y2|]. exists l, te, af, (Some (b, s1)). auto.
    - destruct Z as [-> ->]. split; [auto|]. exists l, te, [], None. auto. }
  destruct (first_command E _ p _ CNil _ _ eq_refl eq_refl H) as (tr1 & tr2 & o & s1 & Q & R & Z).
  destruct (G _ _ _ R) as [Go (l & te & af & r & -> & D & Y)].
  assert (T : tr2 = []).
  { destruct Go as [->| ->]; [|exact Z]. destruct Z as (o' & s' & [Z|(tr3 & tr4 & s2 & r1 & -> & Z & _)]);
      apply cmds_inv in Z as (A & B & _); [exact A|discriminate]. }
  subst tr2. rewrite app_nil_r in Q. exists l, te, af, r. auto.
Qed.

Lemma sorted_all l n : StronglySorted lt l -> (forall i, In i l <-> i < n) -> l = seq 0 n.
Proof.
  assert (G : forall l a m, StronglySorted lt l -> (forall i, In i l <-> a <= i < a + m) -> l = seq a m).
  { induction l0 as [|x l0 IH]; intros a m S M.
    - destruct m as [|m]; [reflexivity|]. destruct (proj2 (M a)); lia.
    - inversion S as [|? ? S1 F]; subst. rewrite Forall_forall in F. pose proof (proj1 (M x) (or_introl eq_refl)) as B.
      destruct m as [|m]; [lia|]. assert (x = a).
      { destruct (proj2 (M a) ltac:(lia)) as [Q|Q]; [exact Q|]. specialize (F a Q). lia. }
      subst x. cbn. f_equal. apply IH; [exact S1|]. intros i. split.
      + intros I. specialize (F i I). pose proof (proj1 (M i) (or_intror I)). lia.
      + intros I. destruct (proj2 (M i) ltac:(lia)) as [Q|Q]; [lia|exact Q]. }
  intros S M. apply G; [exact S|]. intros i. rewrite M. lia.
Qed.
Lemma for_compiled E (Progs : sieve -> prog -> Prop) umax p l b k cs n x m size c rest :
  p_require p = [] -> p_cmds p = CCons (CFor l b k) cs ->
  (forall y q, Progs y q -> written umax y q) -> Progs x p -> admitted x -> scripts_known E Progs x ->
  host_fits E Progs n x rest (initial m size c) ->
  let s := feed (InScript n x) (initial m size c) in
  let log := g_log (log_of E (InScript n x :: rest) (initial m size c)) in
  length log < E_cpu E ->
  well_formed m -> in_document_order m -> 0 < length m -> (forall i, i < length m -> reaches m 0 i) ->
  exists done after s1 o,
    visible log = concat (map snd done) ++ after /\ runs E Progs false (Cmd (CFor l b k)) s (concat (map snd done)) o s1 /\
    ((o = LNext /\ map fst done = seq 0 (length m) /\ exists s2, each E Progs b k done s s2) \/
     (exists before id tr1 left s2 s3 o1, done = before ++ [(id, tr1)] /\ seq 0 (length m) = map fst before ++ id :: left /\
        each E Progs b k before s s2 /\ runs E Progs true (Body b k) (w_part id s2) tr1 o1 s3 /\ o1 <> LNext /\ o = past_for l o1)).
Proof.
  intros P C Wr Px Ad Kn Ho s log Lt W D Ne R.
  pose proof (script_meaning E Progs umax p n x m size c rest Wr Px Ad Kn Ho Lt) as H. fold s log in H.
  destruct (first_command E _ p _ cs _ _ P C H) as (tr1 & tr2 & o & s1 & Q & Ru & _).
  assert (Pa : parts s = m /\ r_part s = 0).
  { subst s. unfold feed. cbv zeta beta iota. match goal with |- context [if ?b then _ else _] => destruct b end; split; reflexivity. }
  destruct Pa as [Pa Pr].
  pose proof (for_whole E Progs false l b k s tr1 o s1 Ru) as G. rewrite Pa, Pr in G.
  destruct (G W D Ne (fun _ => R)) as (ids & done & So & M & T & _ & Z).
  assert (I : ids = seq 0 (length m)).
  { apply sorted_all; [exact So|]. intros i. rewrite M. split; [|intros L; split; [auto|now left]].
    intros [Re _]. destruct Re as [|u v Re' Ch]; [exact Ne|]. apply (wf_order _ W) in Ch. lia. }
  subst ids tr1. exists done, tr2, s1, o. split; [exact Q|]. split; [exact Ru|].
  destruct Z as [(A & B & s2 & Ea & _)|(be & id & t1 & af & s2 & s3 & o1 & A & B & Ea & R1 & N1 & _ & O1 & _)].
  - left. split; [exact A|]. split; [exact B|]. eauto.
  - right. exists be, id, t1, af, s2, s3, o1. repeat (split; [assumption|]). exact O1.
Qed.
