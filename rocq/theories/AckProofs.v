(** Proofs about the host's answers to events that ask nothing. *)
From Coq Require Import Lia.
From Verif Require Import Base Lib Address Var Value SetVar SetProofs Flags Comparator Message EditHeader Expr Event
  Notify Vacation Spam AddrTest Mime Sieve Run RunProofs6 AckSpec.
Import ListNotations.

Definition smap (f : rst -> rst) (r : sres) : sres :=
  match r with
  | SCont s => SCont (f s) | SYield s o => SYield (f s) o | SEnd s => SEnd (f s) | SNone s => SNone (f s) | SPanic => SPanic
  end.
Lemma w_test_twice b b' s : w_test b (w_test b' s) = w_test b s.
Proof. reflexivity. Qed.

Section P.
  Variable E : renv.
  Hypothesis see : blind E.

  Lemma id_test b s : build_message_id E (w_test b s) = (w_test b (fst (build_message_id E s)), snd (build_message_id E s)).
  Proof. unfold build_message_id. cbn. destruct (ms_changed _); reflexivity. Qed.
  Lemma finish_test b s : finish_loop E (w_test b s) = w_test b (finish_loop E s).
  Proof.
    unfold finish_loop. cbn [r_final w_test w_stack]. destruct (r_final s) as [[]|]; try reflexivity.
    change (w_final None (w_stack [] (w_test b s))) with (w_test b (w_final None (w_stack [] s))). rewrite id_test.
    destruct (build_message_id E _) as [s2 [e|]]; reflexivity.
  Qed.
  Lemma finale_test b s : finale E (w_test b s) = (w_test b (fst (finale E s)), snd (finale E s)).
  Proof.
    unfold finale. cbn [r_final w_test]. destruct (r_final s) as [[]|]; try reflexivity.
    change (w_final None (w_test b s)) with (w_test b (w_final None s)). rewrite id_test.
    destruct (build_message_id E _) as [s2 [e|]]; reflexivity.
  Qed.
  Lemma queue_test b s : take_queue (w_test b s) = smap (w_test b) (take_queue s).
  Proof. unfold take_queue. cbn. destruct (r_queue s); reflexivity. Qed.
  Lemma assign_test b r s : assign r (w_test b s) = w_test b (assign r s).
  Proof. unfold assign. destruct r as [c [[]|]]; reflexivity. Qed.
  Lemma pop_test b s : pop_frame (w_test b s) = smap (w_test b) (pop_frame s).
  Proof. unfold pop_frame. cbn [r_stack w_test]. destruct (r_stack s) as [|f [|g rest]]; reflexivity. Qed.
  Lemma parts_test b n : forall s, pop_parts n (w_test b s) = w_test b (pop_parts n s).
  Proof.
    induction n as [|n IH]; intro s; cbn [pop_parts]; [reflexivity|]. cbn [r_iters w_test]. destruct (r_iters s) as [|[]]; [reflexivity|].
    first [rewrite <- IH; reflexivity|reflexivity].
  Qed.
  Lemma fail_test b s e : fail E (w_test b s) e = smap (w_test b) (fail E s e).
  Proof. unfold fail. now rewrite finish_test. Qed.

  Lemma value_test b code s k : (forall v s, k v (w_test b s) = smap (w_test b) (k v s)) ->
    with_value E code (w_test b s) k = smap (w_test b) (with_value E code s k).
  Proof.
    intro H. unfold with_value. rewrite see. change (vw E (w_test b s)) with (vw E s). change (r_epos (w_test b s)) with (r_epos s).
    change (r_estack (w_test b s)) with (r_estack s). destruct (eval_expression _ _ _ _ _ _ _) as [v| | | |]; try reflexivity.
    exact (H v (w_estack [] (w_epos 0 s))).
  Qed.
  Lemma edit_test b m s : edit_msg m (w_test b s) = smap (w_test b) (edit_msg m s).
  Proof. destruct m; reflexivity. Qed.
  Lemma fileinto_test b f fl mi su c cr s : exec_fileinto E f fl mi su c cr (w_test b s) = smap (w_test b) (exec_fileinto E f fl mi su c cr s).
  Proof.
    unfold exec_fileinto. rewrite id_test. change (tx E (w_test b s) f) with (tx E s f). destruct (build_message_id E s) as [s1 created]. cbn [fst snd].
    destruct c; [exact (queue_test b (w_queue _ s1))|]. change (r_final (w_test b s1)) with (r_final s1).
    destruct (r_final s1) as [[]|]; try (match goal with |- context [match ?l with [] => _ | _ => _ end] => destruct l end); first [exact (queue_test b (w_queue _ s1))|exact (queue_test b (w_queue _ (w_final None s1)))].
  Qed.
  Lemma redirect_test b a c l o s : exec_redirect E a c l o (w_test b s) = smap (w_test b) (exec_redirect E a c l o s).
  Proof.
    unfold exec_redirect. change (tx E (w_test b s) a) with (tx E s a). destruct (sanitize_address _) as [t|]; [|exact (queue_test b s)].
    change (r_redirects (w_test b s)) with (r_redirects s). change (r_out (w_test b s)) with (r_out s). destruct (_ && _); [|exact (queue_test b s)].
    change (parts (w_test b s)) with (parts s). destruct (parts s); [reflexivity|]. destruct (Nat.ltb _ _); [|exact (queue_test b s)].
    destruct (_ && _); [exact (queue_test b s)|]. change (r_final (w_test b s)) with (r_final s).
    set (s1 := if c then s else match r_final s with Some (EKeep _ _) => w_final None s | _ => s end).
    replace (if c then w_test b s else match r_final s with Some (EKeep _ _) => w_final None (w_test b s) | _ => w_test b s end) with (w_test b s1)
      by (unfold s1; destruct c; [reflexivity|]; destruct (r_final s) as [[]|]; reflexivity).
    rewrite id_test. destruct (build_message_id E s1) as [s2 created]. cbn [fst snd].
    exact (queue_test b (w_queue _ (w_out (r_out s2 + 1) (w_redirects (r_redirects s2 + 1) s2)))).
  Qed.
  Lemma include_test b n g o t s : exec_include E n g o t (w_test b s) = smap (w_test b) (exec_include E n g o t s).
  Proof.
    unfold exec_include. change (ev E (w_test b s) n) with (ev E s n). destruct (v_is_empty _); [reflexivity|].
    change (r_cache (w_test b s)) with (r_cache s). change (r_stack (w_test b s)) with (r_stack s).
    destruct (_ || _); [|reflexivity]. destruct (Nat.ltb _ _); [|apply fail_test]. destruct (opt_or _ _); reflexivity.
  Qed.

  (** What does not branch and does not test does the same for both *)
  Lemma other_test b i s : ~ branches i -> ~ tests i -> exec_instr E i (w_test b s) = smap (w_test b) (exec_instr E i s).
  Proof.
    intros NB NT. destruct i; try (destruct (NB Logic.I)); try (destruct (NT Logic.I)); try reflexivity; cbn [exec_instr].
    all: try exact (queue_test b (assign _ _)).
    all: try (apply value_test; intros; cbn [smap]; rewrite ?assign_test; try reflexivity; destruct (to_bool _); reflexivity).
    all: try apply fail_test.
    all: try apply pop_test.
    all: try apply fileinto_test.
    all: try apply redirect_test.
    all: try apply include_test.
    all: try exact (edit_test b _ s).
    all: try exact (edit_test b _ (w_part 0 s)).
    - destruct (find _ _) as [[]|]; try reflexivity; apply fail_test.
    - rewrite id_test. destruct (build_message_id E s) as [s1 [e|]]; reflexivity.
    - change (r_iter (w_test b s)) with (r_iter s). change (r_iters (w_test b s)) with (r_iters s). destruct (r_iter s), (r_iters s) as [|[]]; reflexivity.
    - change (parts (w_test b s)) with (parts s). change (r_part (w_test b s)) with (r_part s). change (r_iters (w_test b s)) with (r_iters s).
      destruct (nested_ids _ _ _); reflexivity.
    - cbn [smap]. now rewrite parts_test.
    - rewrite assign_test. exact (queue_test b _).
    - change (convert (mime_env E (w_test b s)) (tx E (w_test b s) from) (tx E (w_test b s) to) (r_msg (w_test b s)))
        with (convert (mime_env E s) (tx E s from) (tx E s to) (r_msg s)). destruct (convert _ _ _ _) as [[]|]; reflexivity.
    - rewrite assign_test. exact (queue_test b _).
    - change (parts (w_test b s)) with (parts s). destruct (parts s) as [|root rest]; [reflexivity|].
      match goal with |- match ?x with _ => _ end = smap _ (match ?y with _ => _ end) => change x with y; destruct y as [[[events last] out]|] end;
        [exact (queue_test b (w_queue events (w_last last (w_out out s))))|exact (queue_test b s)].
    - change (parts (w_test b s)) with (parts s). destruct (parts s) as [|root rest]; [reflexivity|].
      match goal with |- match ?x with _ => _ end = smap _ (match ?y with _ => _ end) => change x with y; destruct y as [[events last] out] end.
      exact (queue_test b (w_queue events (w_last last (w_out out s)))).
    - cbn [smap]. now rewrite assign_test.
    - cbn [smap]. now rewrite finish_test.
  Qed.

  Definition xmap (f : rst -> rst) (x : xres) : xres := match x with XBool b s => XBool b (f s) | x => x end.
  Lemma tres_test b neg r s : of_tres (w_test b s) neg r = xmap (w_test b) (of_tres s neg r).
  Proof. destruct r as [[| |]|]; reflexivity. Qed.
  Lemma bool_test b r s : of_bool (w_test b s) r = xmap (w_test b) (of_bool s r).
  Proof. destruct r; reflexivity. Qed.
  Lemma filters_test b s l : ct_filters E (w_test b s) l = ct_filters E s l.
  Proof. induction l as [|x l IH]; cbn [ct_filters]; [reflexivity|]. now rewrite IH. Qed.
  Lemma test_test b t s : exec_test E (w_test b s) t = xmap (w_test b) (exec_test E s t).
  Proof.
    destruct t; try reflexivity; cbn [exec_test].
    all: try exact (tres_test b _ _ s).
    all: try exact (bool_test b _ s).
    - change (subject_keys E (w_test b s)) with (subject_keys E s). match goal with |- match ?x with _ => _ end = _ => destruct x as [|[] ?] end; try reflexivity.
      match goal with |- match ?x with _ => _ end = _ => destruct x end; try exact (tres_test b _ _ s). rewrite filters_test.
      destruct (ct_filters _ _ _); [exact (tres_test b _ _ s)|reflexivity].
    - change (duplicate_id E (w_test b s) d) with (duplicate_id E s d). destruct (duplicate_id E s d) as [[|]|]; reflexivity.
    - change (tx E (w_test b s) cap) with (tx E s cap). change (tx E (w_test b s) uri) with (tx E s uri). destruct (_ && _); [|reflexivity].
      change (evs E (w_test b s) keys) with (evs E s keys). destruct m; try reflexivity; destruct (first_key _ _ _ _ _ _ _); reflexivity.
    - change (convert (mime_env E (w_test b s)) (tx E (w_test b s) from) (tx E (w_test b s) to) (r_msg (w_test b s)))
        with (convert (mime_env E s) (tx E s from) (tx E s to) (r_msg s)). destruct (convert _ _ _ _) as [[]|]; reflexivity.
    - change (parts (w_test b s)) with (parts s). destruct (parts s) as [|root rest]; [reflexivity|].
      match goal with |- match ?x with _ => _ end = xmap _ (match ?y with _ => _ end) => change x with y; destruct y end; reflexivity.
  Qed.
  (** *** Where an instruction leaves the run *)
  Lemma finish_stack s : r_stack (finish_loop E s) = [] /\ r_cache (finish_loop E s) = r_cache s.
  Proof.
    unfold finish_loop. cbn [r_final w_stack]. destruct (r_final s) as [[]|]; try (split; reflexivity).
    destruct (build_message_id _ _) as [s2 [e1|]] eqn:B; unfold build_message_id in B; destruct (ms_changed _); try discriminate B; injection B as <-; split; reflexivity.
  Qed.
  Lemma finale_stack s : r_stack (fst (finale E s)) = r_stack s /\ r_cache (fst (finale E s)) = r_cache s.
  Proof.
    unfold finale. destruct (r_final s) as [[]|]; try (split; reflexivity).
    destruct (build_message_id _ _) as [s2 [e1|]] eqn:B; unfold build_message_id in B; destruct (ms_changed _); try discriminate B; injection B as <-; split; reflexivity.
  Qed.
  Definition same_place (s s' : rst) : Prop := r_cache s' = r_cache s /\ r_stack s' = r_stack s /\ r_pos s' = r_pos s.
  Lemma same_refl s : same_place s s.
  Proof. repeat split. Qed.
  Lemma id_place s : same_place s (fst (build_message_id E s)) /\ r_queue (fst (build_message_id E s)) = r_queue s.
  Proof. unfold build_message_id. destruct (ms_changed _); repeat split. Qed.
  Lemma assign_place r s : same_place s (assign r s) /\ (snd r = None -> r_queue (assign r s) = r_queue s).
  Proof. destruct r as [c [[]|]]; repeat split. discriminate. Qed.
  Lemma parts_place n : forall s, same_place s (pop_parts n s) /\ r_queue (pop_parts n s) = r_queue s.
  Proof.
    induction n as [|n IH]; intro s; cbn [pop_parts]; [repeat split|]. destruct (r_iters s) as [|[p it] r]; [repeat split|].
    destruct (IH (w_part p (w_iter it (w_iters r s)))) as [(A & B & C) D]. unfold same_place. cbn in *. auto.
  Qed.
  Definition settled (s : rst) (r : sres) : Prop :=
    match r with
    | SCont s' => r_queue s' = [] /\ same_place s s'
    | SYield s' o => same_place s s'
    | SPanic => True
    | _ => False
    end.
  Lemma take_settled s s' : same_place s s' -> settled s (take_queue s').
  Proof. intro H. unfold take_queue. destruct (r_queue s') eqn:Q; cbn [settled]; [split; [exact Q|exact H]|exact H]. Qed.
  Lemma edit_settled m s s' : same_place s s' -> r_queue s' = [] -> settled s (edit_msg m s').
  Proof. intros H Q. destruct m; cbn [edit_msg settled]; [split; [exact Q|exact H]|exact Logic.I]. Qed.
  (** An instruction that asks, calls or goes to none *)
  Definition straight (i : instruction) : Prop :=
    match i with
    | IxJmp _ | IxJz _ | IxJnz _ | IxTest _ | IxEval _ | IxStop | IxForEveryPart _ | IxWhile _ _ | IxLet _ _ | IxInclude _ _ _ _
    | IxReturn | IxRequire _ | IxError _ | IxInvalid _ => False
    | _ => True
    end.
  Definition keeps (i : instruction) : Prop :=
    match i with IxLet (TEnvelope _) _ | IxEditFlags _ (Some (TEnvelope _)) _ => False | _ => True end.
  Lemma straight_settled i s : straight i -> keeps i -> r_queue s = [] -> settled s (exec_instr E i s).
  Proof.
    intros S K Q. destruct i; try destruct S; cbn [exec_instr].
    all: try (apply take_settled; apply assign_place).
    all: try (apply edit_settled; [apply same_refl|exact Q]).
    all: try (split; [exact Q|apply same_refl]).
    all: try (apply same_refl).
    - destruct (id_place s) as [P R]. destruct (build_message_id E s) as [s1 [e|]]; cbn [fst] in *; [exact P|]. split; [|exact P]. cbn. congruence.
    - unfold exec_fileinto. destruct (id_place s) as [P R]. destruct (build_message_id E s) as [s1 created]. cbn [fst] in *. apply take_settled.
      destruct copy; [exact P|]. destruct (r_final s1) as [[]|]; try (match goal with |- context [match ?l with [] => _ | _ => _ end] => destruct l end); exact P.
    - unfold exec_redirect. assert (W : settled s (take_queue s)) by (apply take_settled, same_refl). destruct (sanitize_address _); [|exact W].
      destruct (_ && _); [|exact W]. destruct (parts s); [exact Logic.I|]. destruct (Nat.ltb _ _); [|exact W]. destruct (_ && _); [exact W|].
      set (s1 := if copy then s else match r_final s with Some (EKeep _ _) => w_final None s | _ => s end).
      assert (S1 : same_place s s1) by (unfold s1; destruct copy; [|destruct (r_final s) as [[]|]]; repeat split).
      destruct (id_place s1) as [P _]. destruct (build_message_id E s1) as [s2 created]. cbn [fst] in *. apply take_settled.
      destruct S1 as (A & B & C), P as (A' & B' & C'). unfold same_place. cbn. rewrite A', B', C'. auto.
    - split; [exact Q|repeat split].
    - repeat split.
    - split; [exact Q|repeat split].
    - destruct (nested_ids _ _ _); [|exact Logic.I]. split; [exact Q|repeat split].
    - destruct (parts_place n s) as [P R]. split; [congruence|exact P].
    - apply edit_settled; [repeat split|exact Q].
    - destruct (convert _ _ _ _) as [[]|]; [|exact Logic.I]. split; [exact Q|repeat split].
    - destruct (parts s); [exact Logic.I|]. destruct (exec_notify _ _ _ _) as [[[]]|]; apply take_settled; repeat split.
    - destruct (parts s); [exact Logic.I|]. destruct (exec_vacation _ _ _ _ _) as [[]]. apply take_settled; repeat split.
    - match goal with |- settled s (SCont (assign ?r s)) => destruct (assign_place r s) as [P R]; assert (N : snd r = None) end.
      { unfold exec_flags. destruct name as [[]|]; try reflexivity. destruct K. }
      split; [rewrite R by exact N; exact Q|exact P].
  Qed.
  Lemma test_place t s b s' : exec_test E s t = XBool b s' -> same_place s s' /\ r_queue s' = r_queue s.
  Proof.
    assert (T : forall neg r, of_tres s neg r = XBool b s' -> same_place s s' /\ r_queue s' = r_queue s).
    { intros neg r. destruct r as [[| |]|]; cbn [of_tres]; try discriminate. intro H. injection H as _ <-. repeat split. }
    assert (B : forall r, of_bool s r = XBool b s' -> same_place s s' /\ r_queue s' = r_queue s).
    { intros r. destruct r; cbn [of_bool]; try discriminate. intro H. injection H as _ <-. repeat split. }
    assert (I : forall b0, XBool b0 s = XBool b s' -> same_place s s' /\ r_queue s' = r_queue s).
    { intros b0 H. injection H as _ <-. repeat split. }
    destruct t; cbn [exec_test]; try apply T; try apply B; try apply I; try discriminate.
    - match goal with |- match ?x with _ => _ end = _ -> _ => destruct x as [|[] ?] end; try discriminate; [apply I|].
      destruct bt; try apply T. destruct (ct_filters _ _ _); [apply T|apply I].
    - destruct (duplicate_id E s d) as [[|]|]; try discriminate. apply I.
    - destruct (_ && _); [|apply I]. destruct m; try apply I; destruct (first_key _ _ _ _ _ _ _); try discriminate; apply I.
    - destruct (convert _ _ _ _) as [[]|]; try discriminate. intro H. injection H as _ <-. repeat split.
    - destruct (parts s); [discriminate|]. destruct (vacation_test _ _ _ _); try discriminate. apply I.
  Qed.

  (** *** Both runs together *)
  Hypothesis registered : forall n x, E_scripts E n = Some x -> sound x.
  Definition branch_at (x : sieve) (p : nat) : Prop := exists i, nth_error (s_code x) p = Some i /\ branches i.
  Fixpoint links (l : list frame) : Prop :=
    match l with
    | f :: rest => match rest with g :: _ => ~ branch_at (f_script g) (f_pos f) | [] => True end /\ links rest
    | [] => True
    end.
  Definition held (st : list frame) (ca : list (script_name * sieve)) : Prop :=
    Forall (fun f => sound (f_script f)) st /\ Forall (fun c => sound (snd c)) ca /\ links st.
  Definition ok (s : rst) : Prop := held (r_stack s) (r_cache s).
  Definition dead_in (st : list frame) (p : nat) : Prop := match st with f :: _ => ~ branch_at (f_script f) p | [] => True end.
  Definition dead (s : rst) : Prop := dead_in (r_stack s) (r_pos s).

  Lemma dead_next x p i : sound x -> nth_error (s_code x) p = Some i -> ~ tests i -> ~ branch_at x (p + 1).
  Proof.
    intros [T _] N NT (j & J & B). destruct (T _ _ J B) as [(p' & t & Q & N' & Te) _]. assert (p' = p) by lia. subst p'. rewrite N in N'. injection N' as <-. auto.
  Qed.
  Lemma dead_goto x p i q : sound x -> nth_error (s_code x) p = Some i -> goes_to i q -> ~ branch_at x q.
  Proof. intros [T _] N G (j & J & B). destruct (T _ _ J B) as [_ H]. exact (H i (nth_error_In _ _ N) G). Qed.
  Lemma dead_start x : sound x -> ~ branch_at x 0.
  Proof. intros [T _] (j & J & B). destruct (T _ _ J B) as [(p' & t & Q & _) _]. discriminate. Qed.
  Lemma cached n l x : cache_get n l = Some x -> Forall (fun c => sound (snd c)) l -> sound x.
  Proof.
    induction l as [|[k y] l IH]; cbn [cache_get]; [discriminate|]. intros H F. destruct (script_name_eqb n k); [injection H as <-; exact (Forall_inv F)|].
    apply IH; [exact H|exact (Forall_inv_tail F)].
  Qed.
  Lemma insert_sound n x l : sound x -> Forall (fun c => sound (snd c)) l -> Forall (fun c => sound (snd c)) (cache_insert n x l).
  Proof.
    intros X F. induction l as [|[k y] l IH]; cbn [cache_insert]; [constructor; [exact X|constructor]|].
    destruct (script_name_eqb n k); constructor; try exact X; try exact (Forall_inv F); try exact (Forall_inv_tail F). exact (IH (Forall_inv_tail F)).
  Qed.
  Lemma push_ok x s : sound x -> ok s -> dead s -> ok (push_frame x s) /\ dead (push_frame x s).
  Proof.
    intros X (A & B & C) D. split.
    - split; [|split]; [constructor; [exact X|exact A]|exact B|]. cbn. split; [|exact C]. unfold dead, dead_in in D. destruct (r_stack s); [exact Logic.I|exact D].
    - exact (dead_start x X).
  Qed.
  Lemma pop_ok s : ok s -> r_queue s = [] ->
    match pop_frame s with
    | SCont s' => ok s' /\ r_queue s' = [] /\ dead s'
    | SEnd s' => ok s' /\ r_stack s' = []
    | _ => False
    end.
  Proof.
    intros (A & B & C) Q. unfold pop_frame. destruct (r_stack s) as [|f [|g rest]] eqn:S; cbn.
    - split; [|exact S]. split; [rewrite S; constructor|]. split; [exact B|]. rewrite S. exact Logic.I.
    - split; [|reflexivity]. split; [constructor|]. split; [exact B|exact Logic.I].
    - cbn [links] in C. destruct C as [D C]. split; [|split; [exact Q|exact D]]. split; [exact (Forall_inv_tail A)|]. split; [exact B|exact C].
  Qed.

  Definition both (s : rst) (b : bool) (r r' : sres) : Prop :=
    match r with
    | SCont s' => exists b', r' = SCont (w_test b' s') /\ ok s' /\ r_queue s' = [] /\ (dead s' \/ b' = r_test s')
    | SYield s' o => exists b', r' = SYield (w_test b' s') o /\ ok s' /\ (dead s' \/ r_queue s' = [] /\ question (Some o) /\ b' = r_test s')
    | SEnd s' => exists b', r' = SEnd (w_test b' s') /\ ok s' /\ r_stack s' = []
    | SNone s' => exists b', r' = SNone (w_test b' s') /\ ok s' /\ dead s'
    | SPanic => r' = SPanic
    end.
  Lemma w_test_own s : w_test (r_test s) s = s.
  Proof. destruct s. reflexivity. Qed.
  Lemma place_ok s s' : ok s -> same_place s s' -> ok s'.
  Proof. intros O (A & B & C). unfold ok. now rewrite A, B. Qed.
  Lemma place_dead s s' : dead s -> same_place s s' -> dead s'.
  Proof. intros O (A & B & C). unfold dead. now rewrite B, C. Qed.
  Lemma fail_both s b e : ok s -> both s b (fail E s e) (fail E (w_test b s) e).
  Proof.
    intros (A & B & C). rewrite fail_test. unfold fail. cbn [both smap]. exists b. split; [reflexivity|]. destruct (finish_stack s) as [F G].
    split; [|left; unfold dead; rewrite F; exact Logic.I]. unfold ok. rewrite F, G. split; [constructor|]. split; [exact B|exact Logic.I].
  Qed.
  Lemma value_both code s b k : ok s -> dead_in (r_stack s) (r_pos s - 1) ->
    (forall v, both s b (k v (w_estack [] (w_epos 0 s))) (k v (w_estack [] (w_epos 0 (w_test b s))))) ->
    both s b (with_value E code s k) (with_value E code (w_test b s) k).
  Proof.
    intros O D H. unfold with_value. rewrite see. change (vw E (w_test b s)) with (vw E s). change (r_epos (w_test b s)) with (r_epos s).
    change (r_estack (w_test b s)) with (r_estack s). destruct (eval_expression _ _ _ _ _ _ _) as [v| | | |]; try reflexivity; [apply H|].
    cbn [both]. exists b. split; [reflexivity|]. split; [exact O|]. left. exact D.
  Qed.
  Lemma straight_both i s b : straight i -> keeps i -> r_queue s = [] -> ok s -> dead s -> both s b (exec_instr E i s) (exec_instr E i (w_test b s)).
  Proof.
    intros S K Q O D. pose proof (straight_settled i s S K Q) as Se.
    rewrite (other_test b i s) by (destruct i; intros []; destruct S).
    destruct (exec_instr E i s) as [s'|s' o|s'|s'|]; cbn [settled both smap] in *; try (now destruct Se).
    - destruct Se as [Q' Se]. exists b. split; [reflexivity|]. split; [eapply place_ok; eauto|]. split; [exact Q'|]. left. eapply place_dead; eauto.
    - exists b. split; [reflexivity|]. split; [eapply place_ok; eauto|]. left. eapply place_dead; eauto.
  Qed.
  (** Instruction [i], found at position [p] of the innermost script, has been taken. *)
  Lemma instr_both f rest p i s b : r_stack s = f :: rest -> r_pos s = p + 1 -> nth_error (s_code (f_script f)) p = Some i ->
    ok s -> r_queue s = [] -> (branches i -> b = r_test s) -> both s b (exec_instr E i s) (exec_instr E i (w_test b s)).
  Proof.
    intros S P N O Q Br. pose proof O as (A & B & C). rewrite S in A, C. pose proof (Forall_inv A) as F.
    assert (K : keeps i) by exact (proj2 F i (nth_error_In _ _ N)).
    assert (D : ~ tests i -> dead s) by (intro T; unfold dead; rewrite S, P; exact (dead_next _ _ _ F N T)).
    assert (Here : ~ branches i -> dead_in (r_stack s) (r_pos s - 1)).
    { intro NB. rewrite S, P. replace (p + 1 - 1) with p by lia. intros (j & J & X). rewrite N in J. injection J as <-. auto. }
    assert (G : forall q, goes_to i q -> dead_in (r_stack s) q) by (intros q H; rewrite S; exact (dead_goto _ _ _ _ F N H)).
    destruct i.
    all: try (apply straight_both; solve [auto|exact Logic.I|apply D; intros []]).
    - specialize (D (fun x => x)). cbn [exec_instr]. destruct (find _ _) as [[]|]; try (apply fail_both; exact O). cbn [both]. exists b. auto.
    - cbn [exec_instr both]. exists b. split; [reflexivity|]. split; [|reflexivity]. split; [constructor|]. split; [exact B|exact Logic.I].
    - cbn [exec_instr both]. exists b. split; [reflexivity|]. split; [exact O|]. split; [exact Q|]. left. exact (G p0 eq_refl).
    - rewrite (Br Logic.I), w_test_own. cbn [exec_instr both]. exists (r_test s). destruct (r_test s) eqn:R; (split; [f_equal; destruct s; cbn in *; now subst|]); split; auto.
    - rewrite (Br Logic.I), w_test_own. cbn [exec_instr both]. exists (r_test s). destruct (r_test s) eqn:R; (split; [f_equal; destruct s; cbn in *; now subst|]); split; auto.
    - cbn [exec_instr]. rewrite test_test. destruct (exec_test E s t) as [|v s'|e neg|e] eqn:T; cbn [xmap both].
      + reflexivity.
      + destruct (test_place _ _ _ _ T) as [Pl Qu]. exists v. split; [now rewrite w_test_twice|]. split; [exact (place_ok s (w_test v s') O Pl)|].
        split; [cbn; congruence|]. right. reflexivity.
      + exists neg. split; [reflexivity|]. split; [exact O|]. right. split; [exact Q|]. split; [|reflexivity].
        apply exec_test_question in T. destruct T as [_ T]. destruct e; exact T.
      + apply fail_both. exact O.
    - cbn [exec_instr]. apply value_both; auto. intro v. exists (to_bool v). split; [reflexivity|]. split; [exact O|]. split; [exact Q|]. right. reflexivity.
    - specialize (D (fun x => x)). cbn [exec_instr]. change (r_iter (w_test b s)) with (r_iter s). change (r_iters (w_test b s)) with (r_iters s).
      destruct (r_iter s), (r_iters s) as [|[]]; cbn [both]; exists b; (split; [reflexivity|]; split; [exact O|]; split; [exact Q|]; left);
        first [exact D|exact (G jz eq_refl)].
    - specialize (D (fun x => x)). cbn [exec_instr]. apply value_both; auto. intro v. exists b.
      destruct (to_bool v); (split; [reflexivity|]; split; [exact O|]; split; [exact Q|]; left); [exact D|exact (G jz eq_refl)].
    - specialize (D (fun x => x)). cbn [exec_instr]. apply value_both; auto. intro v. change (w_estack [] (w_epos 0 (w_test b s))) with (w_test b (w_estack [] (w_epos 0 s))). rewrite assign_test. exists b.
      match goal with |- context [assign ?r ?x] => destruct (assign_place r x) as [Pl Qu]; assert (N0 : snd r = None) by (destruct name; try reflexivity; destruct K) end.
      split; [reflexivity|]. specialize (Qu N0). split; [exact (place_ok s _ O Pl)|]. split; [refine (eq_trans Qu _); exact Q|]. left. exact (place_dead s _ D Pl).
    - specialize (D (fun x => x)). cbn [exec_instr]. unfold exec_include. change (ev E (w_test b s) name) with (ev E s name).
      destruct (v_is_empty _); [exists b; auto|]. change (r_cache (w_test b s)) with (r_cache s). change (r_stack (w_test b s)) with (r_stack s).
      destruct (_ || _); [|exists b; auto]. destruct (Nat.ltb _ _); [|apply fail_both; exact O].
      destruct (opt_or _ _) as [x|] eqn:X; [|exists b; auto]. cbn [both].
      assert (So : sound x).
      { destruct (cache_get _ (r_cache s)) as [y|] eqn:Y; cbn [opt_or] in X; [injection X as <-; exact (cached _ _ _ Y B)|exact (registered _ _ X)]. }
      destruct (push_ok x s So O D) as [O' D']. exists b. split; [reflexivity|]. split; [exact O'|]. split; [exact Q|]. now left.
    - cbn [exec_instr]. rewrite pop_test. pose proof (pop_ok s O Q) as H. destruct (pop_frame s) as [s'|s' o|s'|s'|]; cbn [smap both]; try (now destruct H).
      + destruct H as (O' & Q' & D'). exists b. auto.
      + destruct H as (O' & S'). exists b. auto.
    - cbn [exec_instr both]. rewrite finish_test. exists b. split; [reflexivity|]. destruct (finish_stack s) as [F1 F2].
      split; [|left; unfold dead; rewrite F1; exact Logic.I]. unfold ok. rewrite F1, F2. split; [constructor|]. split; [exact B|exact Logic.I].
    - apply fail_both. exact O.
  Qed.

  Lemma step_both s b : ok s -> r_queue s = [] -> dead s \/ b = r_test s -> both s b (step E s) (step E (w_test b s)).
  Proof.
    intros O Q D. unfold step. change (r_stack (w_test b s)) with (r_stack s). change (r_pos (w_test b s)) with (r_pos s). change (next_instr (w_test b s)) with (next_instr s).
    change (r_instrs (w_test b s)) with (r_instrs s). destruct (r_stack s) as [|f rest] eqn:S; [exists b; auto|].
    destruct (Nat.ltb _ _) eqn:L.
    - exists b. split; [reflexivity|]. split; [exact O|]. unfold dead. rewrite S. intros (i & N & _). apply Nat.ltb_lt in L.
      assert (nth_error (s_code (f_script f)) (r_pos s) <> None) by congruence. apply nth_error_Some in H. lia.
    - destruct (next_instr s) as [i|] eqn:N.
      + unfold next_instr in N. rewrite S in N. set (s1 := w_instrs (r_instrs s + 1) s).
        change (w_instrs (r_instrs s + 1) (w_test b s)) with (w_test b s1).
        destruct (Nat.ltb (E_cpu E) _); [apply (fail_both s1); exact O|]. exact (instr_both f rest (r_pos s) i (w_pos (r_pos s1 + 1) s1) b S eq_refl N O Q
          (fun B => match D with or_introl X => ltac:(exfalso; unfold dead in X; rewrite S in X; apply X; exists i; auto) | or_intror X => X end)).
      + rewrite pop_test. pose proof (pop_ok s O Q) as H. destruct (pop_frame s) as [s'|s' o|s'|s'|]; cbn [smap both]; try (now destruct H).
        * destruct H as (O' & Q' & D'). exists b. auto.
        * destruct H as (O' & S'). exists b. auto.
  Qed.
  Definition after (o : option out) (s : rst) (b : bool) : Prop := ok s /\ (dead s \/ r_queue s = [] /\ question o /\ b = r_test s).
  Lemma loop_both n : forall s b s' o, ok s -> r_queue s = [] -> dead s \/ b = r_test s -> loop E n s = RRet s' o ->
    exists b', loop E n (w_test b s) = RRet (w_test b' s') o /\ after o s' b'.
  Proof.
    induction n as [|n IH]; intros s b s' o O Q D H; [discriminate|]. cbn [loop] in *. pose proof (step_both s b O Q D) as Bo.
    destruct (step E s) as [s1|s1 o1|s1|s1|]; cbn [both] in Bo; try discriminate.
    - destruct Bo as (b' & -> & O' & Q' & D'). exact (IH _ _ _ _ O' Q' D' H).
    - destruct Bo as (b' & -> & O' & D'). injection H as <- <-. exists b'. split; [reflexivity|]. split; [exact O'|exact D'].
    - destruct Bo as (b' & -> & O' & S'). rewrite finale_test. pose proof (finale_stack s1) as [F1 F2]. destruct (finale E s1) as [s2 o2]. injection H as <- <-. cbn [fst snd] in *.
      exists b'. split; [reflexivity|]. split; [unfold ok; now rewrite F1, F2|]. left. unfold dead. rewrite F1, S'. exact Logic.I.
    - destruct Bo as (b' & -> & O' & D'). injection H as <- <-. exists b'. split; [reflexivity|]. split; [exact O'|now left].
  Qed.
  Definition answers (last : option out) (i i' : input) : Prop :=
    (i = i' /\ (question last -> ~ hands_script i)) \/ (~ question last /\ yes_or_no i /\ yes_or_no i').
  Lemma feed_both last i i' s b : after last s b -> answers last i i' -> (forall n x, i = InScript n x -> sound x) ->
    exists b', feed i' (w_test b s) = w_test b' (feed i s) /\ ok (feed i s) /\ (dead (feed i s) \/ r_queue (feed i s) = [] /\ b' = r_test (feed i s)).
  Proof.
    intros [O D] An So.
    destruct An as [[<- Hs]|(NQ & Yi & Yi')].
    - destruct i as [| |v|n x].
      + cbn [feed]. exists (xorb b true). rewrite !w_test_twice. split; [reflexivity|]. split; [exact O|]. destruct D as [D|(Q & _ & ->)]; [now left|right; auto].
      + cbn [feed]. exists (xorb b false). rewrite !w_test_twice. split; [reflexivity|]. split; [exact O|]. destruct D as [D|(Q & _ & ->)]; [now left|right; auto].
      + exists b. split; [reflexivity|]. split; [exact O|]. destruct D as [D|(Q & _ & ->)]; [now left|right; auto].
      + cbn [feed]. destruct D as [D|(Q & Qu & _)]; [|destruct (Hs Qu Logic.I)]. destruct (_ && _).
        * exists false. split; [reflexivity|]. destruct O as (A & B & C).
          destruct (push_ok x (w_cache (cache_insert n x (r_cache s)) s) (So n x eq_refl)) as [O' D'].
          { split; [exact A|]. split; [exact (insert_sound n x _ (So n x eq_refl) B)|exact C]. }
          { exact D. }
          split; [exact O'|now left].
        * exists b. split; [reflexivity|]. split; [exact O|now left].
    - destruct D as [D|(_ & Qu & _)]; [|now destruct NQ].
      destruct Yi as [-> | ->], Yi' as [-> | ->]; cbn [feed]; eexists; (split; [rewrite !w_test_twice; reflexivity|]); (split; [exact O|]); left; exact D.
  Qed.
  Lemma run_both last i i' s b s' o : after last s b -> answers last i i' -> (forall n x, i = InScript n x -> sound x) -> run E i s = RRet s' o ->
    exists b', run E i' (w_test b s) = RRet (w_test b' s') o /\ after o s' b'.
  Proof.
    intros Af An So H. unfold run in *. destruct (feed_both _ _ _ _ _ Af An So) as (b1 & -> & O & D). set (t := feed i s) in *.
    change (r_queue (w_test b1 t)) with (r_queue t). change (r_stack (w_test b1 t)) with (r_stack t). change (enough E (w_test b1 t)) with (enough E t).
    destruct (r_queue t) as [|e q] eqn:Q.
    - destruct (r_stack t) as [|f rest] eqn:S.
      + injection H as <- <-. exists b1. split; [reflexivity|]. split; [exact O|]. left. unfold dead. rewrite S. exact Logic.I.
      + apply (loop_both _ _ b1 _ _ O Q) in H; [exact H|]. destruct D as [D|[_ D]]; auto.
    - injection H as <- <-. exists b1. split; [reflexivity|]. split; [exact O|]. left. destruct D as [D|[D _]]; [exact D|discriminate].
  Qed.
  Lemma converse_both inputs : forall inputs' last s b outs s', after last s b -> (forall n x, In (InScript n x) inputs -> sound x) ->
    converse_run E inputs s = Some (outs, s') -> same_answers last inputs inputs' outs ->
    exists b', converse_run E inputs' (w_test b s) = Some (outs, w_test b' s').
  Proof.
    induction inputs as [|i inputs IH]; intros [|i' inputs'] last s b outs s' Af So H Sa; cbn [converse_run same_answers] in *.
    - injection H as <- <-. now exists b.
    - now destruct Sa.
    - destruct outs; now destruct Sa.
    - destruct (run E i s) as [s1 o| |] eqn:R; try discriminate H. destruct (converse_run E inputs s1) as [[os s2]|] eqn:C; [|discriminate H].
      injection H as <- <-. destruct Sa as [An Sa].
      destruct (run_both last i i' s b s1 o Af An (fun n x Q => So n x (or_introl Q)) R) as (b1 & -> & Af1).
      destruct (IH inputs' o s1 b1 os s2 Af1 (fun n x Q => So n x (or_intror Q)) C Sa) as (b2 & ->). exists b2. reflexivity.
  Qed.
End P.
