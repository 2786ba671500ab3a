(** The tokens of a program tell which program it is. *)
From Verif Require Import Base Lib Value Comparator Expr Sieve Compile CompileSpec CompileProofs1 CompileProofs4 RefineSpec.
Import ListNotations.
Local Open Scope list_scope.

Lemma tree_once : (forall t t' us us', rtree t ++ us = rtree t' ++ us' -> t = t' /\ us = us') /\
  (forall ts ts' us us', rtrees ts ++ KPClose :: us = rtrees ts' ++ KPClose :: us' -> ts = ts' /\ us = us').
Proof.
  apply tree_ind2.
  - intros b t' us us' H. destruct t' as [b'| | | |]; cbn in H; destruct b; try discriminate; destruct b'; try discriminate; injection H as <-; auto.
  - intros i t' us us' H. destruct t' as [b'| | | |]; cbn in H; try discriminate; [destruct b'; discriminate|]. injection H as <- <-. auto.
  - intros t IH t' us us' H. destruct t' as [b'| | | |]; cbn in H; try discriminate; [destruct b'; discriminate|]. injection H as H. apply IH in H.
    destruct H as [-> ->]. auto.
  - intros ts IH t' us us' H. destruct t' as [b'| | | |]; cbn in H; try discriminate; [destruct b'; discriminate|]. rewrite <- !app_assoc in H. cbn [app] in H.
    injection H as H. apply IH in H. destruct H as [-> ->]. auto.
  - intros ts IH t' us us' H. destruct t' as [b'| | | |]; cbn in H; try discriminate; [destruct b'; discriminate|]. rewrite <- !app_assoc in H. cbn [app] in H.
    injection H as H. apply IH in H. destruct H as [-> ->]. auto.
  - intros t IH ts' us us' H. destruct ts' as [t'|t' ts']; cbn [rtrees] in H; rewrite <- ?app_assoc in H; apply IH in H; destruct H as [-> H];
      cbn in H; [|discriminate]. injection H as <-. auto.
  - intros t IH ts IHs ts' us us' H. destruct ts' as [t'|t' ts']; cbn [rtrees] in H; rewrite <- ?app_assoc in H; apply IH in H; destruct H as [-> H];
      cbn in H; [discriminate|]. injection H as H. apply IHs in H. destruct H as [-> ->]. auto.
Qed.
(** Commands end here *)
Definition stop_at (us : list token) : Prop := match us with [] => True | KClose _ :: _ => True | _ => False end.
Lemma stop_hd us : stop_at us -> hd_ok us.
Proof. destruct us as [|[] us]; cbn; auto. Qed.
Lemma cmd_hd c us : exists k r, rcmd c ++ us = k :: r /\ match k with KClose _ | KElsIf | KElse => False | _ => True end.
Proof. destruct c; cbn; eexists _, _; (split; [reflexivity|exact Logic.I]). Qed.
Lemma cmds_hd cs us : stop_at us -> hd_ok (rcmds cs ++ us).
Proof.
  destruct cs as [|c cs]; [apply stop_hd|]. intros _. cbn [rcmds]. rewrite <- app_assoc. destruct (cmd_hd c (rcmds cs ++ us)) as (k & r & -> & N).
  destruct k; try contradiction; exact Logic.I.
Qed.
Lemma cmd_once :
  (forall c c' us us', hd_ok us -> hd_ok us' -> rcmd c ++ us = rcmd c' ++ us' -> c = c' /\ us = us') /\
  (forall cs cs' us us', stop_at us -> stop_at us' -> rcmds cs ++ us = rcmds cs' ++ us' -> cs = cs' /\ us = us') /\
  (forall r r' us us', hd_ok us -> hd_ok us' -> rrest r ++ us = rrest r' ++ us' -> r = r' /\ us = us').
Proof.
  assert (Cl : forall k us, stop_at (KClose k :: us)) by (intros; exact Logic.I).
  apply cmd_ind3.
  - intros i c' us us' A B H. destruct c'; cbn in H; try discriminate. injection H as <- <-. auto.
  - intros c' us us' A B H. destruct c'; cbn in H; try discriminate. injection H as <-. auto.
  - intros t v c' us us' A B H. destruct c'; cbn in H; try discriminate. injection H as <- <- <-. auto.
  - intros t b IHb k r IHr c' us us' A B H. destruct c'; cbn in H; try discriminate. injection H as H. rewrite <- !app_assoc in H.
    apply (proj1 tree_once) in H. destruct H as [-> H]. cbn in H. injection H as H. rewrite <- !app_assoc in H. cbn [app] in H.
    apply IHb in H; auto. destruct H as [-> H]. injection H as <- H. apply IHr in H; auto. destruct H as [-> ->]. auto.
  - intros l b IHb k c' us us' A B H. destruct c'; cbn in H; try discriminate. injection H as <- H. rewrite <- !app_assoc in H. cbn [app] in H.
    apply IHb in H; auto. destruct H as [-> H]. injection H as <- <-. auto.
  - intros e b IHb k c' us us' A B H. destruct c'; cbn in H; try discriminate. injection H as <- H. rewrite <- !app_assoc in H. cbn [app] in H.
    apply IHb in H; auto. destruct H as [-> H]. injection H as <- <-. auto.
  - intros l c' us us' A B H. destruct c'; cbn in H; try discriminate. injection H as <- <-. auto.
  - intros c' us us' A B H. destruct c'; cbn in H; try discriminate. injection H as <-. auto.
  - intros c' us us' A B H. destruct c'; cbn in H; try discriminate. injection H as <-. auto.
  - intros [|c' cs'] us us' A B H; [auto|]. exfalso. cbn [rcmds] in H. rewrite <- app_assoc in H. destruct (cmd_hd c' (rcmds cs' ++ us')) as (k & r & Q & N).
    rewrite Q in H. cbn in H. subst us. destruct k; try contradiction.
  - intros c IH cs IHs [|c' cs'] us us' A B H; cbn [rcmds] in H; rewrite <- ?app_assoc in H.
    + exfalso. destruct (cmd_hd c (rcmds cs ++ us)) as (k & r & Q & N). rewrite Q in H. cbn in H. subst us'. destruct k; try contradiction.
    + apply IH in H; [|now apply cmds_hd..]. destruct H as [-> H]. apply IHs in H; auto. destruct H as [-> ->]. auto.
  - intros [|b' k'|t' b' k' r'] us us' A B H; [auto| |]; cbn in H; subst us; contradiction.
  - intros b IHb k [|b' k'|t' b' k' r'] us us' A B H; cbn in H; [subst us'; contradiction| |discriminate]. injection H as H. rewrite <- !app_assoc in H. cbn [app] in H.
    apply IHb in H; auto. destruct H as [-> H]. injection H as <- <-. auto.
  - intros t b IHb k r IHr [|b' k'|t' b' k' r'] us us' A B H; cbn in H; [subst us'; contradiction|discriminate|]. injection H as H. rewrite <- !app_assoc in H.
    apply (proj1 tree_once) in H. destruct H as [-> H]. cbn in H. injection H as H. rewrite <- !app_assoc in H. cbn [app] in H.
    apply IHb in H; auto. destruct H as [-> H]. injection H as <- H. apply IHr in H; auto. destruct H as [-> ->]. auto.
Qed.
Lemma requires_once : forall css css' us us', (forall c r, us <> KRequire c :: r) -> (forall c r, us' <> KRequire c :: r) ->
  map KRequire css ++ us = map KRequire css' ++ us' -> css = css' /\ us = us'.
Proof.
  induction css as [|c css IH]; intros [|c' css'] us us' A B H; cbn in H; [auto|subst us; exfalso; eapply A; reflexivity|subst us'; exfalso; eapply B; reflexivity|].
  injection H as <- H. apply IH in H; auto. destruct H as [-> ->]. auto.
Qed.
Lemma no_require_cmds cs : forall c r, rcmds cs <> KRequire c :: r.
Proof.
  intros c r H. destruct cs as [|c0 cs]; [discriminate|]. cbn [rcmds] in H. destruct c0; discriminate.
Qed.
Lemma spells_once p p' ks : spells p ks -> spells p' ks -> p = p'.
Proof.
  intros (css & A & H0) (css' & B & H). rewrite H0 in H. apply requires_once in H; [|apply no_require_cmds..]. destruct H as [-> H].
  rewrite <- (app_nil_r (rcmds (p_cmds p))), <- (app_nil_r (rcmds (p_cmds p'))) in H. apply (proj1 (proj2 cmd_once)) in H; [|exact Logic.I..].
  destruct p, p'; cbn in *. destruct H as [-> _]. congruence.
Qed.
