(** Proofs about the values of header fields. *)
From Verif Require Import Base Lib Message HeaderShowSpec.

(** What is compared is what [shows] says. *)
Lemma shows_values M h o v : In v (header_values M h o) <-> shows M h o v.
Proof.
  assert (FT : text_header (h_name h) = true <-> free_text (h_name h)).
  { unfold text_header, free_text. rewrite existsb_exists. split; intros (n & I & H); exists n; (split; [exact I|]);
      [now apply teqb_ic_spec in H|now apply teqb_ic_spec]. }
  assert (ST : forall x, holds_type M h x -> o <> MoNone ->
    (In v (match o, x with
      | MoType, HContentType ct => [ct_type ct]
      | MoSubtype, HContentType ct => [match ct_subtype ct with Some s => s | None => [] end]
      | MoContentType, HContentType ct => [ct_full ct]
      | MoParam params, HContentType ct =>
          match ct_attrs ct with
          | Some attrs => flat_map (fun p => map snd (filter (fun a => teqb_ic p (fst a)) attrs)) params
          | None => []
          end ++ [[]]
      | _, _ => [[]]
      end) <-> shows M h o v)).
  { intros x T N.
    assert (U : forall y, holds_type M h y -> y = x).
    { intros y [[A1 A2]|[A1 (t & A2 & A3)]]; destruct T as [[B1 B2]|[B1 (u & B2 & B3)]]; congruence. }
    split.
    - intros H. destruct o; [congruence| | | |]; destruct x as [t|ct|]; cbn in H;
        try (destruct H as [<-|[]]; apply (sh_none M h _ _ T); [discriminate|discriminate]).
      + destruct H as [<-|[]]. exact (sh_type M h ct T).
      + destruct H as [<-|[]]. destruct (ct_subtype ct) eqn:E; [exact (sh_subtype M h ct _ T E)|exact (sh_no_subtype M h ct T E)].
      + destruct H as [<-|[]]. unfold ct_full. destruct (ct_subtype ct) eqn:E; [exact (sh_full M h ct _ T E)|exact (sh_half M h ct T E)].
      + apply in_app_iff in H as [H|[<-|[]]]; [|exact (sh_params_end M h params ct T)].
        destruct (ct_attrs ct) as [attrs|] eqn:E; [|destruct H]. apply in_flat_map in H as (p & Hp & H).
        apply in_map_iff in H as ([n w] & <- & H). apply filter_In in H as [H1 H2]. apply teqb_ic_spec in H2.
        exact (sh_param M h params ct attrs p n w T E Hp H1 H2).
    - intros H. destruct H as [| | |ct X|ct s X E|ct X E|ct s X E|ct X E|params ct attrs p n v X E Hp Hn Hl|params ct X|o v X NC NO];
        try congruence; apply U in X; subst x; cbn.
      + left. reflexivity.
      + rewrite E. left. reflexivity.
      + rewrite E. left. reflexivity.
      + unfold ct_full. rewrite E. left. reflexivity.
      + unfold ct_full. rewrite E. left. reflexivity.
      + rewrite E. apply in_app_iff. left. apply in_flat_map. exists p. split; [exact Hp|]. apply in_map_iff. exists (n, v).
        split; [reflexivity|]. apply filter_In. split; [exact Hn|]. now apply teqb_ic_spec.
      + apply in_app_iff. right. left. reflexivity.
      + destruct o, v as [t|ct|]; try (left; reflexivity); destruct (NC ct eq_refl). }
  unfold header_values. destruct (h_raw h) eqn:R.
  - destruct o.
    2,3,4,5: apply ST; [left; auto|discriminate].
    clear ST. split.
    + destruct (h_val h) as [t|ct|] eqn:V.
      * destruct (text_header (h_name h)) eqn:T; intros [<-|[]].
        -- apply sh_text; [exact R|exact V|now apply FT].
        -- apply sh_plain; [exact R|]. intros [F _]. apply FT in F. congruence.
      * intros [<-|[]]. apply sh_plain; [exact R|]. intros [_ (t & X)]. congruence.
      * intros [<-|[]]. apply sh_plain; [exact R|]. intros [_ (t & X)]. congruence.
    + intros H. inversion H as [t A B C|A B|t A B| | | | | | | |]; subst; try congruence.
      * rewrite B. apply FT in C. rewrite C. left. reflexivity.
      * destruct (h_val h) as [t| |] eqn:V; [|left; reflexivity|left; reflexivity].
        destruct (text_header (h_name h)) eqn:T; [|left; reflexivity]. destruct B. split; [now apply FT|eauto].
  - destruct (h_val h) as [t|ct|] eqn:V.
    + destruct o.
      2,3,4,5: apply ST; [right; eauto|discriminate].
      split; [intros [<-|[]]; now apply sh_added|]. intros H. inversion H; subst; try congruence. left. congruence.
    + split; [intros []|]. intros H. exfalso.
      assert (NH : forall x, ~ holds_type M h x) by (intros x [[A _]|[_ (t & A & _)]]; congruence).
      inversion H; subst; try congruence; eapply NH; eassumption.
    + split; [intros []|]. intros H. exfalso.
      assert (NH : forall x, ~ holds_type M h x) by (intros x [[A _]|[_ (t & A & _)]]; congruence).
      inversion H; subst; try congruence; eapply NH; eassumption.
Qed.
