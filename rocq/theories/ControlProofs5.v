(** foreverypart: the rounds of a loop, and the order of the parts. *)
From Coq Require Import Lia Sorting.Sorted.
From Verif Require Import Base Lib Address Var Value SetVar Flags Comparator Message MessageSpec MessageProofs EditHeader Expr Event
  Notify Vacation Spam AddrTest Mime Sieve Run RunSpec RunProofs
  Compile CompileSpec ControlSpec ControlProofs2.

(** *** Document order *)
Section Order.
  Variable parts : list part.
  Hypothesis DO : in_document_order parts.

  Lemma reach_ge a b : reaches parts a b -> a <= b.
  Proof. induction 1 as [|b c R IH C]; [lia|]. apply (do_down _ DO) in C. lia. Qed.
  Lemma reach_lt a b : reaches parts a b -> b < length parts \/ a < b.
  Proof. induction 1 as [|b c R IH C]; [now left|]. apply (do_down _ DO) in C. apply reach_ge in R. lia. Qed.

  Lemma sorted_app (l1 l2 : list nat) : StronglySorted lt l1 -> StronglySorted lt l2 ->
    (forall x y, In x l1 -> In y l2 -> x < y) -> StronglySorted lt (l1 ++ l2).
  Proof.
    induction 1 as [|a l H IH F]; intros S2 L; [exact S2|]. cbn. constructor.
    - apply IH; auto. intros x y I J. apply L; [right|]; assumption.
    - apply Forall_app. split; [exact F|]. apply Forall_forall. intros y J. apply L; [now left|exact J].
  Qed.

  Lemma pre_sorted id l : pre parts id l -> StronglySorted lt (map fst l) /\ (forall x, In x (map fst l) -> reaches parts id x).
  Proof.
    intros P. induction P using pre_ind2 with
      (P0 := fun ids l _ => forall a p l0, nth_error parts a = Some p -> part_children p = l0 ++ ids ->
        StronglySorted lt (map fst l) /\ (forall x, In x (map fst l) -> exists c, In c ids /\ reaches parts c x)).
    - destruct (IHP id p [] e eq_refl) as [A B]. cbn [map fst]. split.
      + constructor; [exact A|]. apply Forall_forall. intros x I. apply B in I as (c & I & R).
        assert (C : child parts id c) by (exists p; auto). apply (do_down _ DO) in C. apply reach_ge in R. lia.
      + assert (Hid : id < length parts) by (apply nth_error_Some; congruence).
        intros x [<-|I]; [now apply reach_self|]. apply B in I as (c & I & R).
        eapply reaches_trans; [|exact R]. eapply reach_child; [now apply reach_self|]. exists p. auto.
    - intros. split; [constructor|intros ? []].
    - intros a q l0 Ea Ep. destruct IHP as [A1 B1]. destruct (IHP0 a q (l0 ++ [i]) Ea) as [A2 B2].
      { now rewrite <- app_assoc. }
      rewrite map_app. split.
      + apply sorted_app; auto. intros x y I J. apply B1 in I. apply B2 in J as (d & J & R).
        apply in_split in J as (m1 & m2 & ->).
        pose proof (do_siblings _ DO a q l0 i m1 d m2 x Ea Ep I). apply reach_ge in R. lia.
      + intros x I. apply in_app_or in I as [I|I]; [exists i; split; [now left|auto]|].
        apply B2 in I as (c & I & R). exists c. split; [now right|exact R].
  Qed.

  Lemma seq_sorted n : forall a, StronglySorted lt (seq a n).
  Proof.
    induction n as [|n IH]; intros a; cbn; constructor; auto. apply Forall_forall. intros x I. apply in_seq in I. lia.
  Qed.

  Lemma nested_sorted cur inc l : well_formed parts -> cur < length parts ->
    nested_ids parts cur inc = Some l -> StronglySorted lt l.
  Proof.
    intros WF H. unfold nested_ids. destruct (Nat.eqb cur 0) eqn:E0.
    - injection 1 as <-. destruct inc; [apply seq_sorted|]. destruct (Nat.ltb 1 (length parts)); [apply seq_sorted|constructor].
    - destruct (subparts_exact parts cur WF H) as (l1 & _ & P & D & M).
      pose proof (pre_sorted _ _ P) as [So Re]. inversion P as [id p l' E PC]; subst. rewrite E.
      assert (B : match p_body p with BMulti subs => ids_go parts (sub_fuel parts) subs [] | _ => Some [] end = Some (map fst l')).
      { assert (LN : length ((cur, p) :: l') <= length parts).
        { rewrite <- (map_length fst). apply NoDup_bound; [exact D|]. intros i Hi.
          apply in_map_iff in Hi as ([x q] & <- & I). apply M in I as [R _]. apply (reaches_lt _ WF) in R. simpl. lia. }
        cbn [length] in LN. unfold part_children in PC. destruct (p_body p) as [| | |subs|]; try (inversion PC; reflexivity).
        pose proof (ids_go_pres parts subs l' PC 1 [] [] [] eq_refl) as G. rewrite !app_nil_r in G.
        unfold sub_fuel.
        replace (2 * length parts + 2) with ((1 + 2 * length l') + (2 * length parts + 1 - 2 * length l')) by lia.
        apply ids_go_more, G. }
      rewrite B. cbn [option_map]. injection 1 as <-. cbn [map fst] in So. destruct inc; [exact So|]. now inversion So.
  Qed.
End Order.

(** *** Rounds *)
Section Rounds.
  Variable E : renv.
  Variable Progs : sieve -> prog -> Prop.

  Lemma each_alike b k l s s' s2 : alike s s' -> each E Progs b k l s' s2 -> each E Progs b k l s s2.
  Proof.
    intros A H. destruct H.
    - constructor. eapply alike_trans; eauto.
    - econstructor; eauto. eapply rn_alike; [apply alike_part; exact A|assumption].
  Qed.

  Lemma rounds_split inl c s tr o s' : runs E Progs inl c s tr o s' -> forall b k ids, inl = true -> c = Rounds b k ids ->
    exists done, tr = concat (map snd done) /\
      ((o = LNext /\ map fst done = ids /\ each E Progs b k done s s') \/
       (o <> LNext /\ exists before id tr1 after s1, done = before ++ [(id, tr1)] /\ ids = map fst before ++ id :: after /\
          each E Progs b k before s s1 /\ runs E Progs true (Body b k) (w_part id s1) tr1 o s')).
  Proof.
    induction 1; intros b0 k0 ids0 -> Q; try discriminate; subst.
    - destruct (IHruns _ _ _ eq_refl eq_refl) as (done & -> & [(Q1 & Q2 & Ea)|(Q1 & be & id & tr1 & af & s1 & Q2 & Q3 & Ea & Ru)]);
        exists done; (split; [reflexivity|]).
      + left. repeat split; auto. eapply each_alike; eauto.
      + right. split; auto. exists be, id, tr1, af, s1. repeat split; auto. eapply each_alike; eauto.
    - injection Q as <- <- <-. exists []. split; [reflexivity|]. left. repeat split; auto. now constructor.
    - injection Q as <- <- <-.
      destruct (IHruns2 _ _ _ eq_refl eq_refl) as (done & -> & [(Q1 & Q2 & Ea)|(Q1 & be & id' & tr1 & af & s2 & Q2 & Q3 & Ea & Ru)]);
        exists ((id, tr) :: done); (split; [reflexivity|]).
      + left. split; [exact Q1|]. split; [cbn; congruence|]. econstructor; eauto.
      + right. split; [exact Q1|]. exists ((id, tr) :: be), id', tr1, af, s2. subst. repeat split; auto. econstructor; eauto.
    - injection Q as <- <- <-. exists [(id, tr)]. split; [cbn; now rewrite app_nil_r|]. right. split; [assumption|].
      exists [], id, tr, ids, s. repeat split; auto. constructor. reflexivity.
  Qed.

  Lemma for_split inl c s tr o s' : runs E Progs inl c s tr o s' -> forall l b k ids, c = Cmd (CFor l b k) ->
    nested_ids (parts s) (r_part s) (negb inl) = Some ids ->
    exists done, tr = concat (map snd done) /\ r_part s' = r_part s /\
      ((o = LNext /\ map fst done = ids /\ exists s1, each E Progs b k done s s1 /\ alike (w_part (r_part s) s1) s') \/
       (exists before id tr1 after s1 s2 o1, done = before ++ [(id, tr1)] /\ ids = map fst before ++ id :: after /\
          each E Progs b k before s s1 /\ runs E Progs true (Body b k) (w_part id s1) tr1 o1 s2 /\ o1 <> LNext /\ o1 <> LContinue /\
          o = past_for l o1 /\ alike (w_part (r_part s) s2) s')).
  Proof.
    induction 1; intros l0 b0 k0 ids0 Q Ni; try discriminate; subst.
    - destruct (alike_fields _ _ H) as [Q1 Q2].
      destruct (IHruns _ _ _ ids0 eq_refl ltac:(congruence)) as (done & -> & Rp & D). exists done. split; [reflexivity|]. split; [congruence|].
      rewrite Q2. destruct D as [(A & B & s1 & C & D)|(be & id & tr1 & af & s1 & s3 & o1 & B1 & B2 & B3 & B4)].
      + left. repeat split; auto. exists s1. split; [eapply each_alike; eauto|exact D].
      + right. exists be, id, tr1, af, s1, s3, o1. split; [exact B1|]. split; [exact B2|]. split; [eapply each_alike; eauto|exact B4].
    - injection Q as <- <- <-. rewrite Ni in H. injection H as <-.
      destruct (rounds_split _ _ _ _ _ _ H0 b k ids0 eq_refl eq_refl) as (done & -> & [(-> & Q2 & Ea)|(Q1 & be & id & tr1 & af & s2 & Q2 & Q3 & Ea & Ru)]);
        exists done; (split; [reflexivity|]); (split; [now destruct (alike_fields _ _ H2)|]).
      + left. cbn. repeat split; auto. exists s1. auto.
      + right. exists be, id, tr1, af, s2, s1, o. repeat split; auto.
    - injection Q as <- <- <-. congruence.
  Qed.
End Rounds.
