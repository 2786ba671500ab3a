(** Proofs about what the host is told of changes to the message. *)
From Coq Require Import Lia.
From Verif Require Import Base Lib Address Var Value SetVar SetProofs Flags Comparator Message EditHeader Expr Event
  Notify Vacation Spam AddrTest Mime Sieve Run Changed.
Import ListNotations.

(** *** An edit that is not recorded leaves the message as it is *)
Definition quiet_edit (st st' : mstate) : Prop := ms_changed st' = false -> st' = st.
Lemma quiet_refl st : quiet_edit st st.
Proof. intro. reflexivity. Qed.
Lemma quiet_true st st' : ms_changed st' = true -> quiet_edit st st'.
Proof. intros A B. congruence. Qed.
Lemma insert_changed st i n v l st' : insert_header st i n v l = Some st' -> ms_changed st' = ms_changed st.
Proof. unfold insert_header. destruct (update_nth _ _ _); [|discriminate]. intro H. now injection H as <-. Qed.
Lemma insert_all_changed l : forall st st', insert_all l st = Some st' -> ms_changed st' = ms_changed st.
Proof.
  induction l as [|[i [n v]] l IH]; intros st st' H; cbn [insert_all] in H; [now injection H as <-|].
  destruct (insert_header st i n v true) as [st1|] eqn:I; [|discriminate H]. rewrite (IH _ _ H). exact (insert_changed _ _ _ _ _ _ I).
Qed.
Lemma add_quiet L M pr mx n v l i st st' : add_header L M pr mx n v l i st = Some st' -> quiet_edit st st'.
Proof.
  unfold add_header. destruct (filter _ n); [intro H; injection H as <-; apply quiet_refl|]. destruct (hn_parse M _); [|intro H; injection H as <-; apply quiet_refl].
  destruct (existsb _ _); [intro H; injection H as <-; apply quiet_refl|]. intro H. apply insert_changed in H. now apply quiet_true.
Qed.
Lemma delete_quiet L rx M pr n ix ch c m ks i st st' : delete_header L rx M pr n ix ch c m ks i st = Some st' -> quiet_edit st st'.
Proof.
  unfold delete_header. destruct (hn_parse M n); [|intro H; injection H as <-; apply quiet_refl]. destruct (existsb _ _); [intro H; injection H as <-; apply quiet_refl|].
  destruct (find_headers _ _ _ _ _); [|discriminate]. destruct (to_delete _ _ _ _ _ _ _) as [[|x marked]|]; [| |discriminate].
  - cbn [map remove_marked fold_right]. cbn [list_sum fold_right]. cbv zeta. rewrite Nat.sub_0_r. destruct (Nat.ltb _ _); [discriminate|]. intro H. injection H as <-. intros _. now destruct st.
  - destruct (remove_marked _ _); [|discriminate]. cbv zeta. destruct (Nat.ltb _ _); [discriminate|]. intro H. injection H as <-. now apply quiet_true.
Qed.
Lemma convert_parts_quiet E cv ps : forall size did ps' n d, convert_parts E cv ps size did = Some (ps', n, d) -> d = false -> did = false /\ ps' = ps /\ n = size.
Proof.
  induction ps as [|p ps IH]; intros size did ps' n d H D; cbn [convert_parts] in H.
  - injection H as <- <- <-. auto.
  - destruct (convert_body E cv p) as [[b ct]|].
    + destruct (Nat.ltb _ _); [discriminate|]. destruct (convert_parts E cv ps _ true) as [[[r k] d']|] eqn:R; [|discriminate]. injection H as <- <- <-.
      apply IH in R; [|exact D]. destruct R as [R _]. discriminate R.
    + destruct (convert_parts E cv ps size did) as [[[r k] d']|] eqn:R; [|discriminate]. injection H as <- <- <-. cbn [fst snd] in *.
      apply IH in R; [|exact D]. destruct R as (-> & -> & ->). auto.
Qed.
Lemma convert_quiet E f t st b st' : convert E f t st = Some (b, st') -> quiet_edit st st'.
Proof.
  unfold convert. destruct (conversion_of f t) as [cv|]; [|intro H; injection H as _ <-; apply quiet_refl].
  destruct (convert_parts E cv _ _ false) as [[[ps n] d]|] eqn:R; [|discriminate]. intro H. injection H as _ <-. intro C. cbn [ms_changed] in C.
  apply Bool.orb_false_iff in C as [C D]. destruct (convert_parts_quiet _ _ _ _ _ _ _ _ R D) as (_ & -> & ->). subst d. rewrite C. cbn [orb]. destruct st. cbn in *. now subst.
Qed.
Lemma replace_quiet E su fr b mi i st st' : replace E su fr b mi i st = Some st' -> quiet_edit st st'.
Proof.
  unfold replace. destruct (nested_ids _ _ _); [|discriminate]. destruct (remove_all _ _); [|discriminate]. destruct (nth_error _ _); [|discriminate].
  destruct (Nat.ltb _ _); [discriminate|]. destruct (if Nat.eqb i 0 then _ else _) as [[hs n] ad]. destruct (update_nth _ _ _); [|discriminate].
  intro H. apply insert_all_changed in H. now apply quiet_true.
Qed.
Lemma enclose_quiet L M E hs su b st st' : enclose L M E hs su b st = Some st' -> quiet_edit st st'.
Proof. unfold enclose. cbv zeta. intro H. apply insert_all_changed in H. now apply quiet_true. Qed.

Section P.
  Variable E : renv.
  Variable m0 : mstate.
  Variable before : Prop.

  Definition mk (T : list event) (main : nat) (m : mstate) (final : option event) : Prop :=
    (main = 0 -> ms_changed m = false -> m = m0) /\
    (main = 0 -> forall f id, final = Some (EKeep f id) -> id = 0) /\
    (main = 0 -> forall f id, In (EKeep f id) T -> id = 0) /\
    (main <> 0 -> before \/ exists mm, ms_changed mm = true /\ In (ECreated main (E_bytes E mm)) T) /\
    (before -> main <> 0).
  Definition kp (T : list event) (s : rst) : Prop := mk T (r_main s) (r_msg s) (r_final s).
  Definition plain (e : event) : Prop := match e with EKeep _ _ => False | _ => True end.
  Definition calm_q (q : list event) : Prop := Forall (fun e => match e with EKeep _ _ | ECreated _ _ => False | _ => True end) q.
  Definition mid (T : list event) (s : rst) : Prop := kp T s /\ calm_q (r_queue s).
  Definition evs_out (o : out) : list event := match o with OEvent e => [e] | OError _ => [] end.
  Definition still (q : list event) (s : rst) : Prop := forall f id, In (EKeep f id) q -> ms_changed (r_msg s) = false.
  Definition fin (T h : list event) (s : rst) : Prop := kp (T ++ h ++ r_queue s) s /\ still (h ++ r_queue s) s.
  Definition good (T : list event) (r : sres) : Prop :=
    match r with SCont s | SEnd s => mid T s | SNone s => fin T [] s | SYield s o => fin T (evs_out o) s | SPanic => True end.

  Lemma mk_more T T' a b c : mk T a b c -> (forall e, In e T' -> plain e) -> mk (T ++ T') a b c.
  Proof.
    intros (A & B & C & D & F) P. split; [exact A|]. split; [exact B|]. split; [|split; [|exact F]].
    - intros Z f id I. apply in_app_or in I as [I|I]; [exact (C Z f id I)|]. destruct (P _ I).
    - intro Z. destruct (D Z) as [X|(mm & X & Y)]; [now left|]. right. exists mm. split; [exact X|]. apply in_or_app. now left.
  Qed.
  Lemma calm_plain q : calm_q q -> forall e, In e q -> plain e.
  Proof. intros Q e X. pose proof (proj1 (Forall_forall _ _) Q e X) as W. destruct e; cbn in W |- *; auto. Qed.
  Lemma plain_still q s : (forall e, In e q -> plain e) -> still q s.
  Proof. intros P f id I. destruct (P _ I). Qed.
  Lemma give T h s : kp T s -> (forall e, In e (h ++ r_queue s) -> plain e) -> fin T h s.
  Proof. intros K P. split; [now apply mk_more|now apply plain_still]. Qed.
  Lemma mid_fin T s : mid T s -> fin T [] s.
  Proof. intros [K Q]. apply give; [exact K|]. now apply calm_plain. Qed.
  Lemma mid_ask T s e : mid T s -> plain e -> fin T [e] s.
  Proof. intros [K Q] P. apply give; [exact K|]. intros x [<-|I]; [exact P|]. exact (calm_plain _ Q x I). Qed.
  Lemma take_good T s : kp (T ++ r_queue s) s -> (forall e, In e (r_queue s) -> plain e) -> good T (take_queue s).
  Proof.
    intros K P. unfold take_queue. destruct (r_queue s) as [|e q] eqn:Q.
    - split; [now rewrite app_nil_r in K|]. rewrite Q. constructor.
    - split; cbn [evs_out r_queue w_queue app]; [exact K|]. now apply plain_still.
  Qed.
  Lemma take_mid T s : mid T s -> good T (take_queue s).
  Proof. intros [K Q]. apply take_good; [apply mk_more; [exact K|]|]; now apply calm_plain. Qed.
  Lemma mid_edit T s st : quiet_edit (r_msg s) st -> mid T s -> mid T (w_msg st s).
  Proof.
    intros QE [(A & B & C & D & F) Q]. split; [|exact Q]. split; [|now repeat (split; [assumption|])]. cbn. intros Z W. pose proof (QE W) as Y. rewrite Y in W |- *. exact (A Z W).
  Qed.
  Lemma mid_final T s f : match f with Some (EKeep _ _) => False | _ => True end -> mid T s -> mid T (w_final f s).
  Proof.
    intros N [(A & B & C & D & F) Q]. split; [|exact Q]. split; [exact A|]. split; [|now repeat (split; [assumption|])]. cbn. intros Z fl id ->. destruct N.
  Qed.
  Lemma build_kp T s s' o : kp T s -> build_message_id E s = (s', o) ->
    kp (T ++ opt_list o) s' /\ ms_changed (r_msg s') = false /\ r_queue s' = r_queue s /\ r_final s' = r_final s /\ (forall e, In e (opt_list o) -> plain e).
  Proof.
    unfold build_message_id. intros (A & B & C & D & F) H. destruct (ms_changed (r_msg s)) eqn:W; injection H as <- <-.
    - split; [|repeat split; intros e [<-|[]]; exact I]. unfold kp. cbn. split; [lia|]. split; [lia|]. split; [lia|]. split; [|lia].
      intros _. right. exists (r_msg s). split; [exact W|]. rewrite Nat.add_1_r. apply in_or_app. right. left. reflexivity.
    - cbn [opt_list]. rewrite app_nil_r. repeat split; auto. intros e [].
  Qed.
  Lemma kp_keep T s fl id : kp T s -> (r_main s = 0 -> id = 0) -> kp (T ++ [EKeep fl id]) s.
  Proof.
    intros (A & B & C & D & F) Z. split; [exact A|]. split; [exact B|]. split; [|split; [|exact F]].
    - intros Y f i I. apply in_app_or in I as [I|[I|[]]]; [exact (C Y f i I)|]. injection I as _ <-. exact (Z Y).
    - intro Y. destruct (D Y) as [X|(mm & X & G)]; [now left|]. right. exists mm. split; [exact X|]. apply in_or_app. now left.
  Qed.
  Lemma kp_none T s : kp T s -> kp T (w_final None s).
  Proof. intros (A & B & C & D & F). split; [exact A|]. split; [discriminate|]. now repeat (split; [assumption|]). Qed.
  Lemma finish_fin T s : mid T s -> fin T [] (finish_loop E s).
  Proof.
    intros [K Q]. unfold finish_loop. change (r_final (w_stack [] s)) with (r_final s). destruct (r_final s) as [e|] eqn:F; [|now apply mid_fin].
    assert (K1 : kp T (w_final None (w_stack [] s))) by now apply kp_none.
    destruct e; try (apply give; [exact K1|cbn; intros ? [<-|[]]; exact I]).
    destruct (build_message_id E (w_final None (w_stack [] s))) as [s2 o] eqn:B.
    destruct (build_kp _ _ _ _ K1 B) as (K2 & U & _ & _ & _).
    assert (Z : r_main s2 = 0 -> id = 0).
    { intro Z. destruct K as (_ & K & _). apply (K) with (f := flags); [|exact F]. unfold build_message_id in B. cbn [r_msg w_final w_stack] in B.
      destruct (ms_changed (r_msg s)); injection B as <- <-; [cbn in Z; lia|exact Z]. }
    destruct o as [c|]; (split; [|intros fl i _; exact U]); cbn [app r_queue w_queue].
    - change (kp (T ++ [c] ++ [EKeep (keep_flags E s2 flags) (r_main s2)]) s2). rewrite app_assoc. apply kp_keep; [exact K2|auto].
    - change (kp (T ++ [EKeep (keep_flags E s2 flags) id]) s2). cbn [opt_list] in K2. rewrite app_nil_r in K2. apply kp_keep; auto.
  Qed.
  Lemma fail_good T s e : mid T s -> good T (fail E s e).
  Proof. intro K. cbn [good fail evs_out]. now apply finish_fin. Qed.
  Lemma assign_mid T L mx c n v s : mid T s -> mid T (assign (set_variable L mx c n v) s).
  Proof.
    intros [K Q]. unfold assign. destruct n; cbn [set_variable fst snd]; try (split; [exact K|exact Q]).
    split; [exact K|]. constructor; [exact I|constructor].
  Qed.
  Lemma value_good T code s k : mid T s -> (forall v, good T (k v (w_estack [] (w_epos 0 s)))) -> good T (with_value E code s k).
  Proof.
    intros K G. unfold with_value. destruct (eval_expression _ _ _ _ _ _ _); try exact I; [apply G|]. now apply (mid_ask T _ _ K).
  Qed.
  Definition good_test (T : list event) (s : rst) (r : xres) : Prop :=
    match r with XBool _ s' => mid T s' | XAsk e _ => plain e | _ => True end.
  Lemma tres_good T s neg t : mid T s -> good_test T s (of_tres s neg t).
  Proof. intro K. destruct t as [t|]; [|exact I]. destruct t; cbn; first [exact I|exact K]. Qed.
  Lemma test_good T t s : mid T s -> good_test T s (exec_test E s t).
  Proof.
    intro K. assert (B : forall b, good_test T s (of_bool s b)) by (intro b; now destruct b).
    destruct t; cbn [exec_test]; try exact K; try (apply B); try exact I; try (now apply tres_good).
    - destruct (if subject then _ else _) as [|[] caps]; [exact I|exact K|]. destruct bt; try now apply tres_good.
      destruct (ct_filters _ _ _); [now apply tres_good|exact K].
    - destruct (duplicate_id _ _ _) as [[|]|]; [exact K|exact I|exact I].
    - destruct (_ && _); [|exact K]. destruct m; try exact K; destruct (first_key _ _ _ _ _ _ _); exact I || exact K.
    - destruct (convert _ _ _ _) as [[b m]|] eqn:C; [|exact I]. cbn [good_test]. apply mid_edit; [exact (convert_quiet _ _ _ _ _ _ C)|exact K].
    - destruct (parts s); [exact I|]. destruct (vacation_test _ _ _ _); [exact I|exact K|exact I].
  Qed.
  Lemma pop_parts_mid T n : forall s, mid T s -> mid T (pop_parts n s).
  Proof. induction n as [|n IH]; intros s K; cbn [pop_parts]; [exact K|]. destruct (r_iters s) as [|[p it] rest]; [exact K|]. now apply IH. Qed.
  Lemma edit_good T m s : mid T s -> (forall st, m = Some st -> quiet_edit (r_msg s) st) -> good T (edit_msg m s).
  Proof. intros K Q. destruct m; [|exact I]. cbn. apply mid_edit; [now apply Q|exact K]. Qed.
  Lemma copy_plain s f id e : In e (match option_map (fcc_of E s) f with Some (f, fl, mid, su, cr) => [EFileInto f fl mid su cr id] | None => [] end) -> plain e.
  Proof. destruct f as [[[[[a b] mi] su] cr]|]; cbn; intros []; subst; try exact I; contradiction. Qed.
  Lemma take_plain T s q last out : mid T s -> (forall e, In e q -> plain e) -> good T (take_queue (w_queue q (w_last last (w_out out s)))).
  Proof. intros [K Q] P. apply take_good; [|exact P]. apply mk_more; [exact K|exact P]. Qed.
  Lemma exec_good T i s : mid T s -> good T (exec_instr E i s).
  Proof.
    intro K. destruct i; cbn [exec_instr]; try exact K.
    - (* require *) destruct (find _ _) as [[]|]; first [exact K|now apply fail_good].
    - (* keep *) destruct (build_message_id E s) as [s1 o] eqn:B. destruct (build_kp _ _ _ _ (proj1 K) B) as (K1 & _ & Q1 & _ & P1).
      assert (K2 : forall x, kp (T ++ opt_list o) (w_final (Some (EKeep x (r_main s1))) s1)).
      { intro x. destruct K1 as (A & _ & C & D & F). split; [exact A|]. split; [|now repeat (split; [assumption|])]. cbn. intros Z f id H. injection H as _ <-. exact Z. }
      destruct o as [e|].
      + cbn [good evs_out]. split.
        * change (kp (T ++ [e] ++ r_queue s1) (w_final (Some (EKeep (local_or_global_flags (E_L E) (vw E s1) flags) (r_main s1))) s1)).
          rewrite app_assoc. apply mk_more; [exact (K2 _)|]. rewrite Q1. exact (calm_plain _ (proj2 K)).
        * apply plain_still. intros x X. cbn [r_queue w_final] in X. rewrite Q1 in X. destruct X as [<-|X]; [apply P1; now left|]. exact (calm_plain _ (proj2 K) x X).
      + cbn [good]. specialize (K2 (local_or_global_flags (E_L E) (vw E s1) flags)). cbn [opt_list] in K2. rewrite app_nil_r in K2. split; [exact K2|]. cbn [r_queue w_final]. rewrite Q1. exact (proj2 K).
    - (* fileinto *) unfold exec_fileinto. destruct (build_message_id E s) as [s1 o] eqn:B. destruct (build_kp _ _ _ _ (proj1 K) B) as (K1 & _ & Q1 & _ & P1).
      set (s2 := if copy then s1 else _). assert (K2 : kp (T ++ opt_list o) s2).
      { unfold s2. destruct copy; [exact K1|]. destruct (r_final s1) as [[]|]; try (now apply kp_none). destruct flags0; [now apply kp_none|exact K1]. }
      apply take_good; cbn [r_queue w_queue].
      + rewrite app_assoc. apply mk_more; [exact K2|]. intros e [<-|[]]. exact I.
      + intros e X. apply in_app_or in X as [X|[<-|[]]]; [now apply P1|exact I].
    - (* redirect *) unfold exec_redirect. destruct (sanitize_address _) as [a|]; [|now apply take_mid]. destruct (_ && _); [|now apply take_mid].
      destruct (parts s) as [|root ?]; [exact I|]. destruct (Nat.ltb _ _); [|now apply take_mid]. destruct (negb list_ && _); [now apply take_mid|].
      set (s1 := if copy then s else _). assert (K1 : kp T s1).
      { unfold s1. destruct copy; [exact (proj1 K)|]. destruct (r_final s) as [[]|]; try exact (proj1 K). apply kp_none. exact (proj1 K). }
      destruct (build_message_id E s1) as [s2 o] eqn:B. destruct (build_kp _ _ _ _ K1 B) as (K2 & _ & _ & _ & P1).
      apply take_good; cbn [r_queue w_queue].
      + rewrite app_assoc. apply mk_more; [exact K2|]. intros e [<-|[]]. exact I.
      + intros e X. apply in_app_or in X as [X|[<-|[]]]; [now apply P1|exact I].
    - (* discard *) now apply mid_final.
    - (* reject *) apply mid_ask; [now apply mid_final|exact I].
    - cbn. now destruct (r_test s).
    - cbn. now destruct (r_test s).
    - (* test *) pose proof (test_good T t s K) as G. destruct (exec_test E s t) as [|b s'|e neg|e]; [exact I|exact G|exact (mid_ask T _ _ K G)|now apply fail_good].
    - (* eval *) apply value_good; [exact K|intro v; exact K].
    - destruct (r_iter s) as [|p it]; [|exact K]. destruct (r_iters s) as [|[p it] rest]; exact K.
    - destruct (nested_ids _ _ _); [exact K|exact I].
    - now apply pop_parts_mid.
    - apply value_good; [exact K|intro v; cbn; now destruct (to_bool v)].
    - apply value_good; [exact K|intro v]. cbn [good]. apply assign_mid. exact K.
    - apply edit_good; [exact K|]. intros st H. exact (replace_quiet _ _ _ _ _ _ _ _ H).
    - apply edit_good; [exact K|]. intros st H. exact (enclose_quiet _ _ _ _ _ _ _ _ H).
    - (* extract *) apply take_mid, assign_mid. exact K.
    - destruct (convert _ _ _ _) as [[b m]|] eqn:C; [|exact I]. cbn [good]. apply mid_edit; [exact (convert_quiet _ _ _ _ _ _ C)|exact K].
    - apply edit_good; [exact K|]. intros st H. exact (add_quiet _ _ _ _ _ _ _ _ _ _ H).
    - apply edit_good; [exact K|]. intros st H. exact (delete_quiet _ _ _ _ _ _ _ _ _ _ _ _ _ H).
    - (* set *) apply take_mid. unfold exec_set. now apply assign_mid.
    - (* notify *) destruct (parts s) as [|root ?]; [exact I|].
      destruct (exec_notify _ _ _ _) as [[[evs last] out]|] eqn:N; [|now apply take_mid].
      apply take_plain; [exact K|].
      unfold exec_notify in N. destruct (existsb _ _); [discriminate|]. destruct (parse_uri _) as [[scheme rest]|]; [|discriminate]. cbv zeta in N. cbn [n_fcc] in N.
      intros e X. destruct (teqb_ic scheme _ && _).
      + destruct (parse_mailto _ _ _); [|discriminate]. injection N as <- _ _. cbn [app] in X. destruct X as [<-|[<-|X]]; [exact I|exact I|exact (copy_plain _ _ _ _ X)].
      + destruct fcc as [f|].
        * injection N as <- _ _. cbn [app] in X. destruct X as [<-|[<-|X]]; [exact I|exact I|exact (copy_plain s (Some f) _ _ X)].
        * injection N as <- _ _. destruct X as [<-|[]]. exact I.
    - (* vacation *) destruct (parts s) as [|root ?]; [exact I|]. unfold exec_vacation. cbn [vacation_args va_fcc].
      apply take_plain; [exact K|]. intros e [<-|[<-|X]]; [exact I|exact I|exact (copy_plain _ _ _ _ X)].
    - (* flags *) unfold exec_flags. cbn [good]. now apply assign_mid.
    - (* include *) unfold exec_include. destruct (v_is_empty _); [exact K|]. destruct (negb once || _); [|exact K]. destruct (Nat.ltb _ _); [|now apply fail_good].
      destruct (opt_or _ _) as [x|]; [exact K|]. apply mid_ask; [exact K|exact I].
    - unfold pop_frame. destruct (r_stack s) as [|f [|g rest]]; exact K.
    - (* error *) now apply finish_fin.
    - now apply fail_good.
  Qed.
  Lemma step_good T s : mid T s -> good T (step E s).
  Proof.
    intro K. unfold step. destruct (r_stack s) as [|f fs] eqn:S; [exact K|]. destruct (Nat.ltb _ _); [now apply mid_fin|].
    destruct (next_instr s) as [i|] eqn:N.
    - destruct (Nat.ltb _ _); [now apply fail_good|]. now apply exec_good.
    - unfold pop_frame. rewrite S. destruct fs; exact K.
  Qed.
  Definition evs_ret (o : option out) : list event := match o with Some o => evs_out o | None => [] end.
  Lemma finale_good T s s' o : mid T s -> finale E s = (s', o) -> fin T (evs_ret o) s'.
  Proof.
    intros [K Q] H. unfold finale in H. destruct (r_final s) as [e|] eqn:F; [|injection H as <- <-; now apply mid_fin].
    assert (K1 : kp T (w_final None s)) by now apply kp_none.
    destruct e; try (injection H as <- <-; apply (mid_ask T (w_final None s)); [now split|exact I]).
    destruct (build_message_id E (w_final None s)) as [s2 o2] eqn:B. destruct (build_kp _ _ _ _ K1 B) as (K2 & U & Q2 & _ & _).
    assert (Z : r_main s2 = 0 -> id = 0).
    { intro Z. destruct K as (_ & K & _). apply (K) with (f := flags); [|exact F]. unfold build_message_id in B. cbn [r_msg w_final] in B.
      destruct (ms_changed (r_msg s)); injection B as <- <-; [cbn in Z; lia|exact Z]. }
    destruct o2 as [c|]; injection H as <- <-; (split; [|intros fl i _; exact U]); cbn [evs_ret evs_out].
    - change (kp (T ++ [c] ++ [EKeep (keep_flags E s2 flags) (r_main s2)]) s2). rewrite app_assoc. apply kp_keep; [exact K2|auto].
    - rewrite app_assoc. apply mk_more; [|rewrite Q2; now apply calm_plain]. cbn [opt_list] in K2. rewrite app_nil_r in K2. now apply kp_keep.
  Qed.
  Lemma loop_good n : forall T s s' o, mid T s -> loop E n s = RRet s' o -> fin T (evs_ret o) s'.
  Proof.
    induction n as [|n IH]; intros T s s' o K H; [discriminate|]. cbn [loop] in H. pose proof (step_good T s K) as G.
    destruct (step E s) as [s1|s1 o1|s1|s1|]; cbn [good] in G.
    - exact (IH _ _ _ _ G H).
    - injection H as <- <-. exact G.
    - destruct (finale E s1) as [s2 o2] eqn:F. injection H as <- <-. exact (finale_good _ _ _ _ G F).
    - injection H as <- <-. exact G.
    - discriminate.
  Qed.
  Lemma feed_fin T inp s : fin T [] s -> fin T [] (feed inp s).
  Proof. intro K. destruct inp as [| |v|n x]; try exact K. cbn [feed]. destruct (_ && _); exact K. Qed.
  Lemma run_good T inp s s' o : fin T [] s -> run E inp s = RRet s' o -> fin T (evs_ret o) s'.
  Proof.
    intros K H. apply (feed_fin T inp) in K. unfold run in H. destruct (r_queue (feed inp s)) as [|e q] eqn:Q.
    - destruct (r_stack (feed inp s)); [injection H as <- <-; exact K|]. refine (loop_good _ _ _ _ _ _ H).
      destruct K as [K _]. cbn [app] in K. rewrite Q, app_nil_r in K. split; [exact K|]. rewrite Q. constructor.
    - injection H as <- <-. destruct K as [K S]. cbn [app] in K, S. rewrite Q in K, S. exact (conj K S).
  Qed.
  Lemma fin_next T h s : fin T h s -> fin (T ++ h) [] s.
  Proof. intros [K S]. split; [cbn [app]; rewrite <- app_assoc; exact K|]. intros f id X. apply (S f id). apply in_or_app. now right. Qed.
  Definition evs_of (outs : list (option out)) : list event := flat_map evs_ret outs.
  Lemma converse_good inputs : forall T s outs s', fin T [] s -> converse_run E inputs s = Some (outs, s') ->
    fin (T ++ evs_of outs) [] s' /\
    forall outs1 o, outs = outs1 ++ [o] -> still (evs_ret o) s'.
  Proof.
    induction inputs as [|i rest IH]; intros T s outs s' K H; cbn [converse_run] in H.
    - injection H as <- <-. split; [cbn; now rewrite app_nil_r|]. intros outs1 o X. now destruct outs1.
    - destruct (run E i s) as [s1 o| |] eqn:R; try discriminate H. destruct (converse_run E rest s1) as [[os s2]|] eqn:C; [|discriminate H].
      injection H as <- <-. pose proof (run_good _ _ _ _ _ K R) as G. destruct (IH _ _ _ _ (fin_next _ _ _ G) C) as [G2 L]. cbn [fst snd].
      split; [change (evs_of (o :: os)) with (evs_ret o ++ evs_of os); now rewrite app_assoc|].
      intros outs1 x X. destruct outs1 as [|y outs1]; [|injection X as _ X; exact (L _ _ X)].
      injection X as <- ->. destruct rest as [|j rest]; cbn [converse_run] in C.
      + injection C as <-. destruct G as [_ G]. intros f id I. apply (G f id). apply in_or_app. now left.
      + destruct (run E j s1) as [s9 o9| |]; try discriminate C. destruct (converse_run E rest s9) as [[? ?]|]; discriminate C.
  Qed.
End P.
