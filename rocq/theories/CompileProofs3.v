(** The compiler produces the code laid out in CompileSpec: the main loop. *)
From Coq Require Import Lia.
From Verif Require Import Base Lib Address Var Value Flags Comparator Message EditHeader Expr Event
  Notify Vacation Mime Sieve Run RunSpec Compile CompileSpec CompileProofs1 CompileProofs2.

(** *** Blocks *)

Definition bshape (b : blk) : btype * option text := (b_type b, b_label b).
Fixpoint good (l : list (btype * option text)) : Prop :=
  match l with
  | [] => False
  | (t, n) :: l' => match l' with
                    | [] => t = BNot /\ n = None
                    | _ => t <> BNot /\ (n = None \/ t = BFor) /\ good l'
                    end
  end.
Definition encl_of (x : btype * option text) : encl :=
  match fst x with BFor => EFor (snd x) | BWhile => EWhile | _ => EPlain end.
Definition encls (l : list (btype * option text)) : list encl := map encl_of (removelast l).

Fixpoint env_of (umax : nat) (bs : list blk) : list loop_at :=
  match bs with
  | [] => []
  | b :: bs' =>
      if is_loop b then
        {| lp_for := is_for b; lp_label := b_label b;
           lp_start := match bs' with p :: _ => b_start p | [] => 0 end; lp_exit := umax |} :: env_of umax bs'
      else env_of umax bs'
  end.

Fixpoint add_brk (j : nat -> list nat) (bs : list blk) : list blk :=
  match bs with
  | [] => []
  | b :: bs' => if is_loop b then with_break (b_break b ++ j 0) b :: add_brk (fun d => j (S d)) bs'
                else b :: add_brk j bs'
  end.
Definition touch (n : nat) (l : list nat) (bs : list blk) : list blk :=
  match bs with
  | [] => []
  | b :: bs' => with_start n (with_if l b) :: bs'
  end.

Lemma add_brk_nil bs : add_brk (fun _ => []) bs = bs.
Proof. induction bs as [|b bs IH]; cbn; auto. rewrite IH. destruct (is_loop b); auto. rewrite app_nil_r. now destruct b. Qed.
Lemma add_brk_ext j j' bs : (forall d, j d = j' d) -> add_brk j bs = add_brk j' bs.
Proof.
  revert j j'; induction bs as [|b bs IH]; intros j j' H; cbn; auto. destruct (is_loop b).
  - rewrite H. f_equal. apply IH. auto.
  - f_equal. auto.
Qed.
Lemma add_brk_app j j' bs : add_brk j' (add_brk j bs) = add_brk (fun d => j d ++ j' d) bs.
Proof.
  revert j j'; induction bs as [|b bs IH]; intros j j'; cbn; auto. destruct (is_loop b) eqn:Q.
  - cbn. change (is_loop (with_break (b_break b ++ j 0) b)) with (is_loop b). rewrite Q. rewrite IH.
    rewrite app_assoc. reflexivity.
  - cbn. rewrite Q, IH. reflexivity.
Qed.
Lemma touch_touch n l n' l' bs : touch n l (touch n' l' bs) = touch n l bs.
Proof. destruct bs; reflexivity. Qed.
Lemma touch_add n l j bs : add_brk j (touch n l bs) = touch n l (add_brk j bs).
Proof.
  destruct bs as [|b bs]; cbn; auto. change (is_loop (with_start n (with_if l b))) with (is_loop b).
  destruct (is_loop b); reflexivity.
Qed.
Lemma shape_touch n l bs : map bshape (touch n l bs) = map bshape bs.
Proof. destruct bs; reflexivity. Qed.
Lemma shape_add j bs : map bshape (add_brk j bs) = map bshape bs.
Proof. revert j; induction bs as [|b bs IH]; intros j; cbn; auto. destruct (is_loop b); cbn; now rewrite IH. Qed.
Lemma start_add j bs : map b_start (add_brk j bs) = map b_start bs.
Proof. revert j; induction bs as [|b bs IH]; intros j; cbn; auto. destruct (is_loop b); cbn; now rewrite IH. Qed.
Lemma env_touch u n l bs : env_of u (touch n l bs) = env_of u bs.
Proof. destruct bs; reflexivity. Qed.
Lemma env_add u j bs : env_of u (add_brk j bs) = env_of u bs.
Proof.
  revert j; induction bs as [|b bs IH]; intros j; cbn; auto. destruct (is_loop b) eqn:Q; cbn.
  - change (is_loop (with_break (b_break b ++ j 0) b)) with (is_loop b). rewrite Q, IH. do 2 f_equal.
    pose proof (start_add (fun d => j (S d)) bs) as S. destruct (add_brk _ bs), bs; cbn in *; congruence.
  - rewrite Q. auto.
Qed.
Lemma sig_env u bs : good (map bshape bs) -> sig (env_of u bs) = sig_e (encls (map bshape bs)).
Proof.
  unfold encls. induction bs as [|b bs IH]; intros G; [reflexivity|].
  cbn [map] in *. destruct bs as [|b' bs].
  - destruct G as [G G']. cbn in *. unfold is_loop. rewrite G. reflexivity.
  - cbn [map removelast] in *. destruct G as (G1 & G2 & G3). specialize (IH G3).
    cbn [env_of]. cbn [env_of] in IH. unfold bshape in G2; cbn in G2.
    unfold is_loop at 1. unfold encl_of at 1, bshape at 1; cbn [fst snd].
    destruct (b_type b) eqn:T; cbn [sig_e].
    all: try (exact IH).
    + change (sig ({| lp_for := is_for b; lp_label := b_label b; lp_start := b_start b'; lp_exit := u |} :: ?x)) with ((is_for b, b_label b) :: sig x).
      unfold is_for. rewrite T. f_equal. exact IH.
    + unfold sig at 1. cbn [map lp_for lp_label]. unfold is_for. rewrite T.
      destruct G2 as [G2|G2]; [|unfold bshape in G2; cbn in G2; congruence]. rewrite G2. f_equal. exact IH.
Qed.

Section Go.
  Variable umax : nat.
  Variable lim : limits.
  Notation env := (env_of umax).

  Lemma find_label_ok n pos bs : good (map bshape bs) -> existsb (encl_named n) (encls (map bshape bs)) = true ->
    forall k, exists pops,
      find_label n k pos bs =
        Some (pops, add_brk (fun d => match nidx n (sig (env bs)) with
                                      | Some i => if Nat.eqb i d then [pos] else []
                                      | None => []
                                      end) bs) /\
      named_loop n k (env bs) = Some (pops, umax).
  Proof.
    unfold encls. induction bs as [|b bs IH]; intros G H k; [contradiction|].
    cbn [map] in *. destruct bs as [|b' bs]; [discriminate|].
    cbn [map removelast existsb] in H. cbn [map] in G. destruct G as (G1 & G2 & G3).
    assert (IH' : existsb (encl_named n) (map encl_of (removelast (map bshape (b' :: bs)))) = true ->
      forall k, exists pops,
      find_label n k pos (b' :: bs) =
        Some (pops, add_brk (fun d => match nidx n (sig (env (b' :: bs))) with
                                      | Some i => if Nat.eqb i d then [pos] else []
                                      | None => []
                                      end) (b' :: bs)) /\
      named_loop n k (env (b' :: bs)) = Some (pops, umax)) by (intros X; apply IH; auto).
    clear IH. set (bs' := b' :: bs) in *.
    unfold bshape in *; cbn [fst snd] in *. unfold encl_of in H at 1; cbn [fst snd] in H.
    cbn [find_label add_brk env_of]. unfold is_loop, is_for.
    destruct (b_type b) eqn:T; try congruence.
    4: {
      change (sig ({| lp_for := true; lp_label := b_label b; lp_start := b_start b'; lp_exit := umax |} :: env bs'))
        with ((true, b_label b) :: sig (env bs')).
      cbn [named_loop lp_for lp_label lp_exit nidx andb].
      change (match bs' with [] => 0 | p :: _ => b_start p end) with (b_start b').
      cbn [encl_named] in H.
      change (sig (_ :: env bs')) with ((true, b_label b) :: sig (env bs')).
      cbn [nidx andb].
      destruct (label_eqb (b_label b) n) eqn:Q.
      - exists (k + 1). split; [|reflexivity]. cbn [Nat.eqb]. rewrite add_brk_nil. reflexivity.
      - destruct (IH') with (k := k + 1) as (pops & A & B).
        { destruct (b_label b); cbn in Q; [rewrite Q in H|]; exact H. }
        exists pops. rewrite A. cbn [option_map fst snd]. split; [|exact B].
        do 2 f_equal. f_equal.
        + destruct (nidx n (sig (env bs'))); cbn; rewrite app_nil_r; now destruct b.
        + apply add_brk_ext. intros d. destruct (nidx n (sig (env bs'))); reflexivity. }
    4: {
      cbn [named_loop lp_for lp_label lp_exit nidx andb].
      change (sig (_ :: env bs')) with ((false, b_label b) :: sig (env bs')).
      cbn [nidx andb].
      destruct (IH') with (k := k) as (pops & A & B); [exact H|].
      exists pops. rewrite A. cbn [option_map fst snd]. split; [|exact B].
      do 2 f_equal. f_equal.
      + destruct (nidx n (sig (env bs'))); cbn; rewrite app_nil_r; now destruct b.
      + apply add_brk_ext. intros d. destruct (nidx n (sig (env bs'))); reflexivity. }
    all: destruct (IH') with (k := k) as (pops & A & B); [exact H|]; exists pops; rewrite A; cbn [option_map fst snd];
      split; [reflexivity|exact B].
  Qed.

  Lemma find_loop_ok pos bs : good (map bshape bs) ->
    existsb (fun x => match x with EPlain => false | _ => true end) (encls (map bshape bs)) = true ->
    exists l env', env bs = l :: env' /\
      find_loop pos bs = Some (lp_for l, add_brk (fun d => if Nat.eqb 0 d then [if lp_for l then pos + 1 else pos] else []) bs).
  Proof.
    unfold encls. induction bs as [|b bs IH]; intros G H; [contradiction|].
    cbn [map] in *. destruct bs as [|b' bs]; [discriminate|].
    cbn [map removelast existsb] in H. cbn [map] in G. destruct G as (G1 & G2 & G3).
    unfold bshape in *; cbn [fst snd] in *. unfold encl_of in H at 1; cbn [fst snd] in H.
    set (bs' := b' :: bs) in *.
    change (b_type b) with (fst (bshape b)) in *.
    assert (L : is_loop b = match b_type b with BFor | BWhile => true | _ => false end) by reflexivity.
    assert (F : is_for b = match b_type b with BFor => true | _ => false end) by reflexivity.
    cbn [find_loop add_brk env_of]. rewrite L, F. clear L F. unfold bshape in *. cbn [fst] in *.
    destruct (b_type b) eqn:T; try congruence.
    4,5: eexists _, _; split; [reflexivity|]; cbn [lp_for Nat.eqb]; rewrite add_brk_nil; reflexivity.
    all: destruct IH as (l & env' & A & B); [exact G3|exact H|]; exists l, env'; split; [exact A|];
         rewrite B; reflexivity.
  Qed.

  Lemma continue_found bs : good (map bshape bs) -> continue_ok (encls (map bshape bs)) = true ->
    exists l env', env bs = l :: env' /\ do_continue 0 bs = (2, [IxJmp (lp_start l)]).
  Proof.
    unfold encls. induction bs as [|b bs IH]; intros G H; [contradiction|].
    cbn [map] in *. destruct bs as [|b' bs]; [discriminate|].
    cbn [map removelast] in H. cbn [map] in G. destruct G as (G1 & G2 & G3).
    set (bs' := b' :: bs) in *.
    assert (L : is_loop b = match b_type b with BFor | BWhile => true | _ => false end) by reflexivity.
    cbn [do_continue env_of]. rewrite L. clear L.
    cbn [map] in H. unfold encl_of in H at 1. cbn [bshape fst snd] in *.
    change (b_type b) with (fst (bshape b)) in *.
    destruct (fst (bshape b)) eqn:T; try (unfold bshape in *; cbn in *; congruence).
    1,2,3: destruct IH as (l & env' & A & B); [exact G3|exact H|]; exists l, env'; split; [exact A|exact B].
    - eexists _, _; split; [reflexivity|]. cbn [lp_start]. subst bs'.
      destruct bs as [|b'' bs].
      + cbn in G3. destruct G3 as [G3 _]. cbn. rewrite G3. reflexivity.
      + cbn [map removelast] in H. unfold encl_of in H at 1; unfold bshape in H at 1; cbn [fst snd] in H.
        cbn [do_continue]. destruct (b_type b') eqn:T'; try reflexivity; try discriminate.
  Qed.

  Lemma return_pops bs : length (filter is_for bs) = length (filter lp_for (env bs)).
  Proof.
    induction bs as [|b bs IH]; cbn; auto. unfold is_loop, is_for at 1. destruct (b_type b) eqn:T; cbn; auto.
    - unfold is_for at 2. rewrite T. cbn. now rewrite IH.
    - unfold is_for at 2. rewrite T. auto.
  Qed.
End Go.
