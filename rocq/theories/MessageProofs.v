(** Proofs about MIME traversals and header selection. *)
From Verif Require Import Base Lib Var Value Glob Comparator ComparatorSpec ComparatorProofs ComparatorProofs2
  Message MessageSpec.

(** *** Reachability in a well-formed tree *)
Lemma NoDup_app_disjoint {A} (l1 l2 : list A) : NoDup l1 -> NoDup l2 ->
  (forall x, In x l1 -> In x l2 -> False) -> NoDup (l1 ++ l2).
Proof.
  induction l1 as [|x l1 IH]; intros N1 N2 D; [exact N2|]. inversion N1 as [|? ? A1 A2]; subst.
  simpl. constructor.
  - intro I. apply in_app_or in I as [I|I]; [contradiction|]. apply (D x); [left; reflexivity|exact I].
  - apply IH; auto. intros y H1 H2. apply (D y); [right; exact H1|exact H2].
Qed.

Lemma NoDup_app_l {A} (l1 l2 : list A) : NoDup (l1 ++ l2) -> NoDup l1.
Proof.
  induction l1 as [|x l1 IH]; simpl; intro N; [constructor|]. inversion N as [|? ? A1 A2]; subst.
  constructor; [|apply IH, A2]. intro I. apply A1. apply in_or_app. left. exact I.
Qed.
Lemma NoDup_app_r {A} (l1 l2 : list A) : NoDup (l1 ++ l2) -> NoDup l2.
Proof. induction l1 as [|x l1 IH]; simpl; intro N; [exact N|]. inversion N; subst. apply IH. assumption. Qed.
Lemma NoDup_app_excl {A} (l1 l2 : list A) x : NoDup (l1 ++ l2) -> In x l1 -> In x l2 -> False.
Proof.
  induction l1 as [|y l1 IH]; simpl; intros N H1 H2; [contradiction|]. inversion N as [|? ? A1 A2]; subst.
  destruct H1 as [->|H1]; [apply A1, in_or_app; right; exact H2|apply IH; assumption].
Qed.

Section T.
  Variable parts : list part.
  Hypothesis WF : well_formed parts.

  Lemma reaches_le a b : reaches parts a b -> a <= b.
  Proof. induction 1 as [|b c H IH C]; [lia|]. apply (wf_order _ WF) in C. lia. Qed.
  Lemma reaches_lt a b : reaches parts a b -> a < length parts /\ b < length parts.
  Proof. induction 1 as [|b c H IH C]; [lia|]. apply (wf_order _ WF) in C. lia. Qed.
  Lemma reaches_trans a b c : reaches parts a b -> reaches parts b c -> reaches parts a c.
  Proof. intros H1 H2. induction H2 as [|x y H IH C]; [exact H1|]. eapply reach_child; eassumption. Qed.
  Lemma reaches_last a b : reaches parts a b -> a = b \/ exists x, reaches parts a x /\ child parts x b.
  Proof. intro H. destruct H; [left; reflexivity|right; eauto]. Qed.

  Lemma reaches_linear a b d : reaches parts a d -> reaches parts b d -> reaches parts a b \/ reaches parts b a.
  Proof.
    intro Ha. revert b. induction Ha as [|x y H IH C]; intros b Hb.
    - right. exact Hb.
    - destruct (reaches_last _ _ Hb) as [E|(z & Hz & Cz)].
      + subst b. left. eapply reach_child; eassumption.
      + assert (z = x) as -> by (eapply (wf_parent _ WF); eassumption). apply IH, Hz.
  Qed.

  Lemma siblings_disjoint p i j d : child parts p i -> child parts p j -> i <> j ->
    reaches parts i d -> reaches parts j d -> False.
  Proof.
    assert (G : forall i j, child parts p i -> child parts p j -> i <> j -> reaches parts i j -> False).
    { intros a b Ca Cb N H. destruct (reaches_last _ _ H) as [E|(x & Hx & Cx)]; [congruence|].
      assert (x = p) as -> by (eapply (wf_parent _ WF); eassumption).
      apply reaches_le in Hx. apply (wf_order _ WF) in Ca. lia. }
    intros Ci Cj N Hi Hj. destruct (reaches_linear _ _ _ Hi Hj) as [H|H].
    - apply (G i j Ci Cj N H).
    - apply (G j i Cj Ci (fun E => N (eq_sym E)) H).
  Qed.

  (** *** Preorder *)
  Inductive pre : nat -> list (nat * part) -> Prop :=
  | pre_node : forall id p l, nth_error parts id = Some p -> pres (part_children p) l -> pre id ((id, p) :: l)
  with pres : list nat -> list (nat * part) -> Prop :=
  | pres_nil : pres [] []
  | pres_cons : forall i is l1 l2, pre i l1 -> pres is l2 -> pres (i :: is) (l1 ++ l2).
  Scheme pre_ind2 := Induction for pre Sort Prop
  with pres_ind2 := Induction for pres Sort Prop.

  Lemma sub_go_more any f : forall iter stack r k,
    sub_go parts any f iter stack = Some r -> sub_go parts any (f + k) iter stack = Some r.
  Proof.
    induction f as [|f IH]; intros iter stack r k H; [discriminate|]. cbn [sub_go plus] in *.
    destruct iter as [|id iter].
    - destruct stack as [|i s]; [exact H|apply IH, H].
    - destruct (nth_error parts id) as [p|]; [|exact H].
      destruct (p_body p) as [t|t|t|subs|ps]; try destruct any;
        match goal with H : option_map _ ?x = Some r |- _ => destruct x as [q|] eqn:E; [|discriminate] end;
        rewrite (IH _ _ _ k E); exact H.
  Qed.

  Lemma sub_go_pre id l : pre id l -> forall f iter stack r,
    sub_go parts true f iter stack = Some r ->
    sub_go parts true (f + 2 * length l) (id :: iter) stack = Some (l ++ r).
  Proof.
    intro P. induction P using pre_ind2 with
      (P0 := fun ids l _ => forall f iter stack r, sub_go parts true f iter stack = Some r ->
             sub_go parts true (f + 2 * length l) (ids ++ iter) stack = Some (l ++ r)).
    - intros f iter stack r H. cbn [length]. replace (f + 2 * S (length l)) with (S (S f + 2 * length l)) by lia.
      cbn [sub_go]. rewrite e. specialize (IHP (S f) [] (iter :: stack) r). rewrite app_nil_r in IHP.
      assert (B : sub_go parts true (S f + 2 * length l) (part_children p) (iter :: stack) = Some (l ++ r)) by (apply IHP; exact H).
      unfold part_children in *. destruct (p_body p) eqn:EB;
        try (inversion p0; subst l; cbn [length app] in *;
             replace (S f + 2 * 0) with (f + 1) by lia; rewrite (sub_go_more true f iter stack r 1 H); reflexivity).
      rewrite B. reflexivity.
    - intros f iter stack r H. simpl. rewrite Nat.add_0_r. exact H.
    - intros f iter stack r H. rewrite app_length. replace (f + 2 * (length l1 + length l2)) with ((f + 2 * length l2) + 2 * length l1) by lia.
      cbn [app]. rewrite <- app_assoc. apply IHP. apply IHP0. exact H.
  Qed.

  Lemma child_of p id i : nth_error parts id = Some p -> In i (part_children p) -> child parts id i.
  Proof. intros H I. exists p. auto. Qed.

  Lemma reaches_down a b : reaches parts a b -> a = b \/ exists x, child parts a x /\ reaches parts x b.
  Proof.
    induction 1 as [|b c H IH C]; [left; reflexivity|]. right. destruct IH as [<-|(x & Cx & Hx)].
    - exists c. split; [exact C|]. apply reach_self. apply (wf_order _ WF) in C. lia.
    - exists x. split; [exact Cx|]. eapply reach_child; eassumption.
  Qed.

  Lemma pre_exists_n n : forall id, length parts - id <= n -> id < length parts ->
    exists l, pre id l /\ NoDup (map fst l) /\
      (forall i p, In (i, p) l <-> reaches parts id i /\ nth_error parts i = Some p).
  Proof.
    induction n as [|n IH]; intros id Hn Hid; [lia|].
    destruct (nth_error parts id) as [p|] eqn:E; [|apply nth_error_None in E; lia].
    assert (G : forall ids, NoDup ids -> (forall i, In i ids -> child parts id i) ->
      exists l, pres ids l /\ NoDup (map fst l) /\
        (forall i q, In (i, q) l <-> (exists k, In k ids /\ reaches parts k i) /\ nth_error parts i = Some q)).
    { induction ids as [|k ids IHids]; intros ND C.
      - exists []. split; [constructor|]. split; [constructor|]. intros i q. split; [intros []|intros [(k & [] & _) _]].
      - inversion ND as [|? ? N1 N2]; subst.
        assert (Ck : child parts id k) by (apply C; left; reflexivity).
        pose proof (wf_order _ WF _ _ Ck) as Hk.
        destruct (IH k) as (l1 & P1 & D1 & M1); [lia|lia|].
        destruct (IHids N2) as (l2 & P2 & D2 & M2); [intros i Hi; apply C; right; exact Hi|].
        exists (l1 ++ l2). split; [constructor; assumption|]. split.
        + rewrite map_app. apply NoDup_app_disjoint; try assumption.
          intros x H1 H2. apply in_map_iff in H1 as ([x1 q1] & <- & I1). apply in_map_iff in H2 as ([x2 q2] & E2 & I2).
          simpl in E2. subst x2. apply M1 in I1 as [R1 _]. apply M2 in I2 as [(j & Hj & R2) _].
          simpl in *. apply (siblings_disjoint id k j x1); auto. intros ->. contradiction.
        + intros i q. rewrite in_app_iff, M1, M2. split.
          * intros [[R N]|[(j & Hj & R) N]]; (split; [|exact N]); [exists k|exists j]; (split; [|exact R]); [left; reflexivity|right; exact Hj].
          * intros [(j & [<-|Hj] & R) N]; [left; auto|right; split; [exists j; auto|exact N]]. }
    destruct (G (part_children p) (wf_once _ WF _ _ E) (fun i Hi => child_of p id i E Hi)) as (l & P & D & M).
    exists ((id, p) :: l). split; [constructor; assumption|]. split.
    - simpl. constructor; [|exact D]. intro I. apply in_map_iff in I as ([x q] & Ex & I). simpl in Ex. subst x.
      apply M in I as [(k & Hk & R) _]. apply reaches_le in R. pose proof (wf_order _ WF _ _ (child_of p id k E Hk)). lia.
    - intros i q. simpl. rewrite M. split.
      + intros [H|[(k & Hk & R) N]].
        * injection H as <- <-. split; [apply reach_self, Hid|exact E].
        * split; [|exact N]. eapply reaches_trans; [|exact R]. eapply reach_child; [apply reach_self, Hid|]. eapply child_of; eassumption.
      + intros [R N]. destruct (reaches_down _ _ R) as [<-|(x & (p' & E' & I') & Hx)].
        * left. congruence.
        * right. split; [|exact N]. exists x. split; [|exact Hx]. congruence.
  Qed.
End T.

Lemma NoDup_bound l n : NoDup l -> (forall i, In i l -> i < n) -> length l <= n.
Proof.
  intros N B. rewrite <- (seq_length n 0). apply NoDup_incl_length; [exact N|].
  intros i Hi. apply in_seq. specialize (B i Hi). lia.
Qed.

Lemma subparts_exact parts root : well_formed parts -> root < length parts ->
  exists l, subparts parts root true = Some l /\ pre parts root l /\ NoDup (map fst l) /\
    (forall i p, In (i, p) l <-> reaches parts root i /\ nth_error parts i = Some p).
Proof.
  intros WF H. destruct (pre_exists_n parts WF (length parts) root) as (l & P & D & M); [lia|exact H|].
  exists l. split; [|auto].
  assert (LN : length l <= length parts).
  { rewrite <- (map_length fst l). apply NoDup_bound; [exact D|]. intros i Hi.
    apply in_map_iff in Hi as ([x q] & <- & I). apply M in I as [R _]. apply (reaches_lt _ WF) in R. simpl. lia. }
  unfold subparts, sub_fuel. pose proof (sub_go_pre parts root l P 1 [] [] [] eq_refl) as G.
  rewrite app_nil_r in G.
  replace (2 * length parts + 2) with ((1 + 2 * length l) + (2 * length parts + 1 - 2 * length l)) by lia.
  apply sub_go_more, G.
Qed.

Lemma subparts_self parts root p : nth_error parts root = Some p -> subparts parts root false = Some [(root, p)].
Proof.
  intro E. unfold subparts, sub_fuel. replace (2 * length parts + 2) with (S (S (2 * length parts))) by lia.
  cbn [sub_go]. rewrite E. destruct (p_body p); reflexivity.
Qed.

(** *** find_nested_parts_ids *)
Lemma ids_go_more parts f : forall iter stack r k,
  ids_go parts f iter stack = Some r -> ids_go parts (f + k) iter stack = Some r.
Proof.
  induction f as [|f IH]; intros iter stack r k H; [discriminate|]. cbn [ids_go plus] in *.
  destruct iter as [|id iter].
  - destruct stack as [|i s]; [exact H|apply IH, H].
  - destruct (nth_error parts id) as [p|].
    + destruct (p_body p);
        match goal with H : option_map _ ?x = Some r |- _ => destruct x as [q|] eqn:E; [|discriminate] end;
        rewrite (IH _ _ _ k E); exact H.
    + match goal with H : option_map _ ?x = Some r |- _ => destruct x as [q|] eqn:E; [|discriminate] end.
      rewrite (IH _ _ _ k E); exact H.
Qed.
Lemma ids_go_pre parts : forall id l, pre parts id l -> forall f iter stack r,
  ids_go parts f iter stack = Some r -> ids_go parts (f + 2 * length l) (id :: iter) stack = Some (map fst l ++ r).
Proof.
  intros id l P. induction P using pre_ind2 with
    (P0 := fun ids l _ => forall f iter stack r, ids_go parts f iter stack = Some r ->
           ids_go parts (f + 2 * length l) (ids ++ iter) stack = Some (map fst l ++ r)).
  - intros f iter stack r H. cbn [length]. replace (f + 2 * S (length l)) with (S (S f + 2 * length l)) by lia.
    cbn [ids_go]. rewrite e. specialize (IHP (S f) [] (iter :: stack) r). rewrite app_nil_r in IHP.
    assert (B : ids_go parts (S f + 2 * length l) (part_children p) (iter :: stack) = Some (map fst l ++ r)) by (apply IHP; exact H).
    unfold part_children in *. destruct (p_body p) eqn:EB;
      try (inversion p0; subst l; cbn [length app map] in *;
           replace (S f + 2 * 0) with (f + 1) by lia; rewrite (ids_go_more parts f iter stack r 1 H); reflexivity).
    rewrite B. reflexivity.
  - intros f iter stack r H. simpl. rewrite Nat.add_0_r. exact H.
  - intros f iter stack r H. rewrite app_length. replace (f + 2 * (length l1 + length l2)) with ((f + 2 * length l2) + 2 * length l1) by lia.
    cbn [app]. rewrite map_app, <- app_assoc. apply IHP. apply IHP0. exact H.
Qed.

Lemma ids_go_pres parts : forall ids l, pres parts ids l -> forall f iter stack r,
  ids_go parts f iter stack = Some r -> ids_go parts (f + 2 * length l) (ids ++ iter) stack = Some (map fst l ++ r).
Proof.
  induction ids as [|i ids IH]; intros l P f iter stack r H; inversion P as [|? ? l1 l2 P1 P2]; subst.
  - simpl. rewrite Nat.add_0_r. exact H.
  - rewrite app_length. replace (f + 2 * (length l1 + length l2)) with ((f + 2 * length l2) + 2 * length l1) by lia.
    cbn [app]. rewrite map_app, <- app_assoc. apply ids_go_pre; [exact P1|]. apply IH; assumption.
Qed.

Lemma nested_ids_exact parts cur inc : well_formed parts -> cur < length parts ->
  (cur = 0 -> forall i, i < length parts -> reaches parts 0 i) ->
  exists l, nested_ids parts cur inc = Some l /\ NoDup l /\
    (forall i, In i l <-> reaches parts cur i /\ (inc = true \/ i <> cur)).
Proof.
  intros WF H RT. unfold nested_ids. destruct (Nat.eqb cur 0) eqn:E0.
  - apply Nat.eqb_eq in E0. subst cur. eexists. split; [reflexivity|].
    assert (R0 : forall i, reaches parts 0 i <-> i < length parts).
    { intro i. split; [intro R; apply (reaches_lt _ WF) in R; lia|apply RT; reflexivity]. }
    destruct inc.
    + split; [apply seq_NoDup|]. intro i. rewrite in_seq, R0. intuition lia.
    + destruct (Nat.ltb 1 (length parts)) eqn:E1.
      * apply Nat.ltb_lt in E1. split; [apply seq_NoDup|]. intro i. rewrite in_seq, R0. intuition (try lia; try discriminate).
      * apply Nat.ltb_ge in E1. split; [constructor|]. intro i. rewrite R0. simpl. intuition (try lia; try discriminate).
  - destruct (subparts_exact parts cur WF H) as (l & _ & P & D & M).
    inversion P as [id p l' E PC]; subst. rewrite E.
    assert (B : match p_body p with BMulti subs => ids_go parts (sub_fuel parts) subs [] | _ => Some [] end = Some (map fst l')).
    { assert (LN : length ((cur, p) :: l') <= length parts).
      { rewrite <- (map_length fst). apply NoDup_bound; [exact D|]. intros i Hi.
        apply in_map_iff in Hi as ([x q] & <- & I). apply M in I as [R _]. apply (reaches_lt _ WF) in R. simpl. lia. }
      cbn [length] in LN. unfold part_children in PC. destruct (p_body p) as [| | |subs|]; try (inversion PC; reflexivity).
      pose proof (ids_go_pres parts subs l' PC 1 [] [] [] eq_refl) as G. rewrite !app_nil_r in G.
      unfold sub_fuel.
      replace (2 * length parts + 2) with ((1 + 2 * length l') + (2 * length parts + 1 - 2 * length l')) by lia.
      apply ids_go_more, G. }
    rewrite B. cbn [option_map]. eexists. split; [reflexivity|].
    simpl in D. inversion D as [|? ? D1 D2]; subst.
    assert (MI : forall i, In i (map fst ((cur, p) :: l')) <-> reaches parts cur i).
    { intro i. rewrite in_map_iff. split.
      - intros ([x q] & <- & I). apply M in I. simpl. tauto.
      - intro R. destruct (reaches_lt _ WF _ _ R) as [_ Hi].
        destruct (nth_error parts i) as [q|] eqn:Eq; [|apply nth_error_None in Eq; lia].
        exists (i, q). split; [reflexivity|]. apply M. auto. }
    simpl map in MI. destruct inc; cbn [app].
    + split; [constructor; assumption|]. intro i. rewrite MI. intuition.
    + split; [assumption|]. intro i. rewrite <- MI. simpl. split.
      * intro I. split; [right; exact I|]. right. intros ->. contradiction.
      * intros [[<-|I] [Q|Q]]; try discriminate; try congruence; exact I.
Qed.

(** *** find_nested_parts *)
Lemma deep_go_more f : forall parts iter stack r k,
  deep_go f parts iter stack = Some r -> deep_go (f + k) parts iter stack = Some r.
Proof.
  induction f as [|f IH]; intros parts iter stack r k H; [discriminate|]. cbn [deep_go plus] in *.
  destruct iter as [|id iter].
  - destruct stack as [|[i [ps|]] s]; [exact H|apply IH, H|apply IH, H].
  - destruct (nth_error parts id) as [p|]; [|apply IH, H].
    destruct (p_body p);
      match goal with H : option_map _ ?x = Some r |- _ => destruct x as [q|] eqn:E; [|discriminate] end;
      rewrite (IH _ _ _ _ k E); exact H.
Qed.
Lemma deep_go_le f g parts iter stack r : f <= g ->
  deep_go f parts iter stack = Some r -> deep_go g parts iter stack = Some r.
Proof. intros H E. replace g with (f + (g - f)) by lia. apply deep_go_more, E. Qed.

(** [ll] is the deep traversal of [root]. *)
Definition deep_ok (parts : list part) (root : nat) (ll : list (list nat * part)) : Prop :=
  (forall f iter stack r, deep_go f parts iter stack = Some r ->
     deep_go (f + 3 * length ll + 1) parts (root :: iter) stack = Some (map snd ll ++ r)) /\
  NoDup (map fst ll) /\
  (forall path q, In (path, q) ll <-> deep_at parts root path q) /\
  length ll <= list_sum (map part_size parts).

Lemma deep_at_nonempty parts root path q : deep_at parts root path q -> path <> [].
Proof. destruct 1; discriminate. Qed.

Section D.
  Variable parts : list part.
  Hypothesis WF : well_formed parts.
  Hypothesis NEST : forall p ps, In p parts -> p_body p = BMessage ps -> exists nl, deep_ok ps 0 nl.

  (** What one preorder entry stands for. *)
  Definition below (i : nat) (p : part) (path : list nat) (q : part) : Prop :=
    (path = [i] /\ q = p) \/ exists ps path', p_body p = BMessage ps /\ path = i :: path' /\ deep_at ps 0 path' q.

  Definition good (ids : list nat) (l : list (nat * part)) : Prop :=
    exists ll,
      (forall f iter stack r, deep_go f parts iter stack = Some r ->
         deep_go (f + 3 * length ll) parts (ids ++ iter) stack = Some (map snd ll ++ r)) /\
      (NoDup (map fst l) -> NoDup (map fst ll)) /\
      (forall path q, In (path, q) ll <-> exists i p, In (i, p) l /\ below i p path q) /\
      length ll <= list_sum (map (fun ip => part_size (snd ip)) l).

  Lemma good_node id p l : nth_error parts id = Some p ->
    good (part_children p) l -> (forall ps, p_body p = BMessage ps -> l = []) -> good [id] ((id, p) :: l).
  Proof.
    intros E (ll & G1 & G2 & G3 & G4) LM.
    assert (IN : In p parts) by (eapply nth_error_In; exact E).
    destruct (p_body p) as [t|t|t|subs|ps] eqn:EB.
    5: { destruct (NEST p ps IN EB) as (nl & N1 & N2 & N3 & N4).
      specialize (LM ps eq_refl). subst l.
      exists (([id], p) :: map (fun pq => (id :: fst pq, snd pq)) nl). split; [|split; [|split]].
      - intros f iter stack r H. cbn [length app map]. rewrite map_length, map_map. cbn [snd].
        replace (f + 3 * S (length nl)) with (S (S f + 3 * length nl + 1)) by lia.
        cbn [deep_go]. rewrite E, EB.
        rewrite (N1 (S f) [] ((iter, Some parts) :: stack) r); [reflexivity|]. exact H.
      - intros _. cbn [map]. rewrite map_map. cbn [fst]. constructor.
        + rewrite in_map_iff. intros ([pa q] & X & I). simpl in X. injection X as ->.
          apply N3, deep_at_nonempty in I. congruence.
        + apply (NoDup_map_inv (fun l => match l with [] => [] | _ :: t => t end)).
          rewrite map_map. exact N2.
      - intros path q. split.
        + intros [H|H].
          * injection H as <- <-. exists id, p. split; [left; reflexivity|left; auto].
          * apply in_map_iff in H as ([pa q'] & X & I). simpl in X. injection X as <- <-. apply N3 in I.
            exists id, p. split; [left; reflexivity|]. right. exists ps, pa. auto.
        + intros (i & p' & [H|[]] & B). injection H as <- <-. destruct B as [[-> ->]|(ps' & pa & EB' & -> & DA)].
          * left. reflexivity.
          * right. apply in_map_iff. exists (pa, q). split; [reflexivity|]. apply N3. congruence.
      - cbn [length map list_sum fold_right]. rewrite map_length. destruct p as [hs ct b]. simpl in EB. subst b.
        cbn [part_size snd]. unfold list_sum in *. lia. }
    all: exists (([id], p) :: ll); split; [|split; [|split]].
    all: try (intros path q; split;
       [intros [H|H];
         [injection H as <- <-; exists id, p; split; [left; reflexivity|left; auto]
         |apply G3 in H as (i & p' & I & B); exists i, p'; split; [right; exact I|exact B]]
       |intros (i & p' & [H|I] & B);
         [injection H as <- <-; destruct B as [[-> ->]|(ps' & pa & EB' & _)]; [left; reflexivity|congruence]
         |right; apply G3; exists i, p'; auto]]).
    all: try (cbn [length map list_sum fold_right]; assert (1 <= part_size (snd (id, p))) by (destruct p as [? ? []]; simpl; lia);
              unfold list_sum in *; cbn [snd] in *; lia).
    all: try (intro D; cbn [map fst] in D; inversion D as [|? ? D1 D2]; subst; cbn [map fst]; constructor; [|apply G2, D2];
              rewrite in_map_iff; intros ([pa q] & X & I); simpl in X; subst pa; apply G3 in I as (i & p' & I & B);
              destruct B as [[B _]|(ps' & pa & _ & B & DA)];
              [injection B as <-; apply D1; exact (in_map fst _ _ I)
              |injection B as <- B; subst; apply deep_at_nonempty in DA; congruence]).
    all: intros f iter stack r H; cbn [length app map snd];
         replace (f + 3 * S (length ll)) with (S (S (S f) + 3 * length ll)) by lia;
         cbn [deep_go]; rewrite E, EB; unfold part_children in G1; rewrite EB in G1.
    4: { specialize (G1 (S (S f)) [] ((iter, None) :: stack) r). rewrite app_nil_r in G1.
         rewrite G1; [reflexivity|]. apply (deep_go_le (S f) (S (S f))); [lia|exact H]. }
    all: specialize (G1 (S (S f)) iter stack r); cbn [app] in G1; rewrite G1; [reflexivity|];
         apply (deep_go_le f (S (S f))); [lia|exact H].
  Qed.

  Lemma good_pre id l : pre parts id l -> good [id] l.
  Proof.
    intro P. induction P using pre_ind2 with (P0 := fun ids l _ => good ids l).
    - apply good_node; [assumption|exact IHP|]. intros ps EB. unfold part_children in p0. rewrite EB in p0.
      inversion p0. reflexivity.
    - exists []. split; [|split; [|split]].
      + intros f iter stack r H. simpl. rewrite Nat.add_0_r. exact H.
      + intros _. constructor.
      + intros path q. split; [intros []|intros (i & p & [] & _)].
      + apply Nat.le_0_l.
    - destruct IHP as (ll1 & A1 & A2 & A3 & A4). destruct IHP0 as (ll2 & B1 & B2 & B3 & B4).
      exists (ll1 ++ ll2). split; [|split; [|split]].
      + intros f iter stack r H. rewrite app_length, map_app, <- app_assoc.
        replace (f + 3 * (length ll1 + length ll2)) with ((f + 3 * length ll2) + 3 * length ll1) by lia.
        apply A1. apply B1. exact H.
      + intro D. rewrite map_app in *. assert (D1 : NoDup (map fst l1)) by (eapply NoDup_app_l; exact D).
        assert (D2 : NoDup (map fst l2)) by (eapply NoDup_app_r; exact D).
        apply NoDup_app_disjoint; [apply A2, D1|apply B2, D2|].
        intros pa H1 H2. apply in_map_iff in H1 as ([pa1 q1] & <- & I1). apply in_map_iff in H2 as ([pa2 q2] & X & I2).
        simpl in X. subst pa2. apply A3 in I1 as (i1 & p1 & I1 & W1). apply B3 in I2 as (i2 & p2 & I2 & W2).
        assert (i1 = i2).
        { destruct W1 as [[W1 _]|(? & ? & _ & W1 & _)], W2 as [[W2 _]|(? & ? & _ & W2 & _)]; simpl in *; congruence. }
        subst i2. eapply NoDup_app_excl; [exact D| |].
        * exact (in_map fst _ _ I1).
        * exact (in_map fst _ _ I2).
      + intros path q. rewrite in_app_iff, A3, B3. split.
        * intros [(i' & p' & I' & W)|(i' & p' & I' & W)]; exists i', p'; (split; [apply in_or_app|exact W]); auto.
        * intros (i' & p' & I' & W). apply in_app_or in I' as [I'|I']; [left|right]; exists i', p'; auto.
      + rewrite app_length, map_app, list_sum_app. lia.
  Qed.
End D.

Lemma sum_sub parts : forall l : list (nat * part), NoDup (map fst l) ->
  (forall i p, In (i, p) l -> nth_error parts i = Some p) ->
  list_sum (map (fun ip => part_size (snd ip)) l) <= list_sum (map part_size parts).
Proof.
  induction parts as [|p0 parts IH]; intros l ND H.
  - destruct l as [|[i p] l]; [simpl; lia|]. specialize (H i p (or_introl eq_refl)). destruct i; discriminate.
  - (* split off the entry for part 0, if any *)
    set (sh := map (fun ip : nat * part => (pred (fst ip), snd ip)) (filter (fun ip => negb (Nat.eqb (fst ip) 0)) l)).
    assert (A : list_sum (map (fun ip => part_size (snd ip)) sh) <= list_sum (map part_size parts)).
    { apply IH.
      - unfold sh. rewrite map_map. cbn [fst]. clear IH H sh.
        induction l as [|[i p] l IHl]; simpl; [constructor|]. simpl in ND. inversion ND as [|? ? N1 N2]; subst.
        destruct i as [|i]; simpl; [apply IHl, N2|]. constructor; [|apply IHl, N2].
        intro I. apply in_map_iff in I as ([j q] & X & I). apply filter_In in I as [I F]. simpl in *.
        apply N1. destruct j as [|j]; [discriminate|]. simpl in X. subst j. exact (in_map fst _ _ I).
      - intros i p I. unfold sh in I. apply in_map_iff in I as ([j q] & X & I). apply filter_In in I as [I F].
        simpl in *. injection X as <- <-. specialize (H j q I). destruct j; [discriminate|exact H]. }
    assert (B : list_sum (map (fun ip => part_size (snd ip)) l) <= part_size p0 + list_sum (map (fun ip => part_size (snd ip)) sh)).
    { unfold sh. clear A IH sh. induction l as [|[i p] l IHl]; [simpl; lia|].
      simpl in ND. inversion ND as [|? ? N1 N2]; subst.
      destruct i as [|i]; cbn [filter fst Nat.eqb negb map snd list_sum fold_right].
      - assert (p = p0) as -> by (specialize (H 0 p (or_introl eq_refl)); simpl in H; congruence).
        assert (F : filter (fun ip : nat * part => negb (Nat.eqb (fst ip) 0)) l = l).
        { clear IHl H N2. induction l as [|[j q] l IHl]; [reflexivity|]. simpl in *. destruct j; [tauto|].
          simpl. rewrite IHl; [reflexivity| |tauto]. inversion ND as [|? ? M1 M2]; subst. inversion M2; subst.
          constructor; tauto. }
        rewrite F, map_map. cbn [snd]. unfold list_sum. lia.
      - specialize (IHl N2 (fun j q I => H j q (or_intror I))). unfold list_sum in *. lia. }
    cbn [map list_sum fold_right]. unfold list_sum in *. lia.
Qed.

Lemma deep_exists parts : wf_deep parts -> forall root, exists ll, deep_ok parts root ll.
Proof.
  induction 1 as [parts WF W IH]. intro root.
  destruct (lt_dec root (length parts)) as [H|H].
  - destruct (subparts_exact parts root WF H) as (l & _ & P & D & M).
    destruct (good_pre parts (fun p ps I E => IH p ps I E 0) root l P) as (ll & A & B & C & E).
    exists ll. split; [|split; [|split]].
    + intros f iter stack r R. apply (deep_go_le (f + 3 * length ll)); [lia|]. apply (A f iter stack r R).
    + apply B, D.
    + intros path q. rewrite C. split.
      * intros (i & p & I & W'). apply M in I as [R N]. destruct W' as [[-> ->]|(ps & pa & EB & -> & DA)].
        -- apply da_here; assumption.
        -- eapply da_nested; eassumption.
      * intro DA. inversion DA as [? ? i p R N|? ? i p ps pa q' R N EB DA']; subst.
        -- exists i, q. split; [apply M; auto|left; auto].
        -- exists i, p. split; [apply M; auto|]. right. exists ps, pa. auto.
    + etransitivity; [exact E|]. apply sum_sub; [exact D|]. intros i p I. apply M in I. tauto.
  - exists []. split; [|split; [|split]].
    + intros f iter stack r R. cbn [length map app]. replace (f + 3 * 0 + 1) with (S f) by lia. cbn [deep_go].
      assert (E : nth_error parts root = None) by (apply nth_error_None; lia). rewrite E. exact R.
    + constructor.
    + intros path q. split; [intros []|]. intro DA.
      assert (R : exists i, reaches parts root i) by (inversion DA; eauto).
      destruct R as [i R]. apply (reaches_lt _ WF) in R. lia.
    + apply Nat.le_0_l.
Qed.

Lemma deep_parts_exact parts root : wf_deep parts ->
  exists ll, deep_parts parts root = Some (map snd ll) /\ NoDup (map fst ll) /\
    (forall path q, In (path, q) ll <-> deep_at parts root path q).
Proof.
  intro W. destruct (deep_exists parts W root) as (ll & A & B & C & D). exists ll. split; [|auto].
  specialize (A 1 [] [] [] eq_refl). rewrite app_nil_r in A.
  unfold deep_parts. apply (deep_go_le (1 + 3 * length ll + 1)); [lia|exact A].
Qed.
