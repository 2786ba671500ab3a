(** C107: functions under further names leave scripts as they are. *)
From Coq Require Import Lia.
From Verif Require Import Base Lib Address Var Value SetVar Flags Comparator Message EditHeader
  Expr ExprTok Event Sieve Utf8 Lexer Scope StringTok Compile ParseArgs ParseBase Parse Host HostSpec FnSpec ParseFn FnExpr PropertiesHost PropertiesParse.
Import ListNotations.

Definition register1 (m : option fmap) (g : registration) : option fmap :=
  match m with
  | None => None
  | Some m => match g_offer g with
              | InProcess f => Some (with_function_args (g_name g) f (g_args g) m)
              | Elsewhere id => set_external_function (g_name g) id (g_args g) m
              end
  end.
Lemma none_stays l : fold_left register1 l None = None.
Proof. induction l; [reflexivity|assumption]. Qed.
Lemma teqb_other a b : a <> b -> teqb a b = false.
Proof. intro N. destruct (teqb a b) eqn:E; [|reflexivity]. now apply teqb_spec in E. Qed.
Lemma more_known more : forall m m', fold_left register1 more (Some m) = Some m' ->
  (forall name, (forall g, In g more -> g_name g <> name) -> known m' name = known m name) /\
  exists fs, fm_fns m' = fm_fns m ++ fs.
Proof.
  induction more as [|g more IH]; intros m m' E; cbn [fold_left] in E.
  - injection E as <-. split; [reflexivity|]. exists []. now rewrite app_nil_r.
  - destruct (register1 (Some m) g) as [m1|] eqn:R; [|now rewrite none_stays in E].
    destruct (IH m1 m' E) as [IH1 (fs & IH2)].
    assert (X : (forall name, g_name g <> name -> known m1 name = known m name) /\ exists fs, fm_fns m1 = fm_fns m ++ fs).
    { cbn [register1] in R. destruct (g_offer g) as [f|id].
      - injection R as <-. split; [|eexists; reflexivity]. intros name N. unfold known. cbn. rewrite teqb_other; auto.
      - unfold set_external_function in R. destruct (N.leb id id_external); [|discriminate]. injection R as <-. split; [|exists []; cbn; now rewrite app_nil_r].
        intros name N. unfold known. cbn. rewrite teqb_other; auto. }
    destruct X as [X1 (gs & X2)]. split.
    + intros name N. rewrite IH1 by (intros; apply N; now right). apply X1, N. now left.
    + exists (gs ++ fs). rewrite IH2, X2. now rewrite app_assoc.
Qed.
Lemma known_registered l : forall m0 m, fold_left register1 l (Some m0) = Some m -> forall name y, known m name = Some y ->
  known m0 name = Some y \/ exists g, In g l /\ g_name g = name.
Proof.
  intros m0 m E name y Y. destruct (existsb (fun g => teqb (g_name g) name) l) eqn:X.
  - apply existsb_exists in X. destruct X as (g & I1 & E1). apply teqb_spec in E1. right. eauto.
  - left. rewrite <- Y. symmetry. apply (more_known l m0 m E). intros g Ig EN.
    assert (Z : existsb (fun g => teqb (g_name g) name) l = true); [|congruence]. apply existsb_exists. exists g. split; [exact Ig|]. now apply teqb_spec.
Qed.

(** Functions registered later under names that were not in use: a script that compiled before
    compiles to the same code, and its calls of functions of the process find the same functions. *)
Theorem C107_more_functions :
  forall K l more m m' script x,
    registered l = Some m -> registered (l ++ more) = Some m' ->
    (forall g g', In g l -> In g' more -> g_name g' <> g_name g) ->
    compile (with_known K (known m)) script = Compiled x ->
    compile (with_known K (known m')) script = Compiled x.
Proof.
  intros K l more m m' script x E E' D C. change (registered (l ++ more)) with (fold_left register1 (l ++ more) (Some fm_new)) in E'.
  rewrite fold_left_app in E'. change (fold_left register1 l (Some fm_new)) with (registered l) in E'. rewrite E in E'.
  apply (compile_with_fns (with_known K (known m)) (known m')) with (FU := 2 * length script + 2) in C; [exact C|].
  cbn [with_known C_fns]. intros n y Y. rewrite <- Y. apply (more_known more m m' E'). intros g Ig.
  destruct (known_registered l fm_new m E n y Y) as [Z|(g0 & I0 & <-)]; [discriminate|]. now apply D.
Qed.
Print Assumptions C107_more_functions.
Theorem C107_linked :
  forall l more m m' ctx id f, registered l = Some m -> registered (l ++ more) = Some m' ->
    linked_in m ctx id = Some f -> linked_in m' ctx id = Some f.
Proof.
  intros l more m m' ctx id f E E' H. change (registered (l ++ more)) with (fold_left register1 (l ++ more) (Some fm_new)) in E'.
  rewrite fold_left_app in E'. change (fold_left register1 l (Some fm_new)) with (registered l) in E'. rewrite E in E'.
  destruct (more_known more m m' E') as [_ (fs & F)]. unfold linked_in in *. rewrite F.
  destruct (nth_error (fm_fns m) (N.to_nat id)) as [g|] eqn:G; [|discriminate]. rewrite nth_error_app1; [now rewrite G|].
  apply nth_error_Some. congruence.
Qed.
Print Assumptions C107_linked.
Lemma last_of l : forall name, (exists g, In g l /\ g_name g = name) -> exists g, stands l g /\ g_name g = name.
Proof.
  induction l as [|x l IH] using rev_ind; intros name (g & Ig & E); [destruct Ig|].
  destruct (teqb (g_name x) name) eqn:X.
  - apply teqb_spec in X. exists x. split; [|exact X]. exists l, []. split; [reflexivity|]. intros g' [].
  - apply teqb_false in X. apply in_app_or in Ig as [Ig|[<-|[]]]; [|contradiction]. destruct (IH name) as (g1 & (b & a & -> & N) & E1); [eauto|].
    exists g1. split; [|exact E1]. exists b, (a ++ [x]). split; [now rewrite <- app_assoc|]. intros g' I'. apply in_app_or in I' as [I'|[<-|[]]]; [now apply N|congruence].
Qed.
Lemma same_function l more m m' name id k : room (l ++ more) -> (N.of_nat (length (l ++ more)) <= 4294967293)%N ->
  registered l = Some m -> registered (l ++ more) = Some m' -> (forall g g', In g l -> In g' more -> g_name g' <> g_name g) ->
  known m name = Some (id, k) -> forall ctx, linked_in m ctx id = linked_in m' ctx id.
Proof.
  intros R NB E E' D Y ctx.
  destruct (known_registered l fm_new m E name _ Y) as [Z|Z]; [discriminate|]. destruct (last_of l name Z) as (g & (b & a & EL & NA) & EN).
  assert (Ig : In g l) by (subst l; apply in_or_app; right; now left).
  assert (Lm : length l <= length (l ++ more)) by (rewrite app_length; lia).
  destruct (map_grows l (length (l ++ more)) NB Lm) as (m1 & E1 & _ & K1' & _).
  { intros g0 id0 I0. apply R. apply in_or_app. now left. }
  destruct (map_grows (l ++ more) (length (l ++ more)) NB (le_n _) R) as (m2 & E2 & _ & K2 & _).
  rewrite E in E1. injection E1 as <-. rewrite E' in E2. injection E2 as <-.
  destruct (K1' g) as (i1 & Y1 & _ & O1); [exists b, a; now split|].
  destruct (K2 g) as (i2 & Y2 & _ & O2).
  { exists b, (a ++ more). split; [subst l; now rewrite <- app_assoc|]. intros g' I'. apply in_app_or in I' as [I'|I']; [now apply NA|now apply D]. }
  assert (Q : known m' (g_name g) = known m (g_name g)).
  { change (registered (l ++ more)) with (fold_left register1 (l ++ more) (Some fm_new)) in E'.
    rewrite fold_left_app in E'. change (fold_left register1 l (Some fm_new)) with (registered l) in E'. rewrite E in E'.
    apply (more_known more m m' E'). intros g' I'. now apply D. }
  rewrite EN in *. rewrite Y in *. injection Y1 as <- _. rewrite Q in Y2. injection Y2 as <- _.
  destruct (g_offer g); [rewrite O1, O2; reflexivity|]. rewrite (proj1 O1 ctx), (proj1 O2 ctx). reflexivity.
Qed.

(** What a word of an expression stands for: a variable, or else a function. *)
Definition names (vars : text -> bool -> option vartype) (m : fmap) (n : text) (ns : bool) : option Expr.token :=
  match vars n ns with
  | Some v => Some (Expr.TVar v)
  | None => option_map (fun y => TFun (fst y) (snd y)) (known m n)
  end.
(** The code of an expression stays, and running it goes as before: the same calls are put to
    the host, with the same arguments, and it has the same outcome. *)
Theorem C107_expressions :
  forall L vars l more m m' src code,
    room (l ++ more) -> (N.of_nat (length (l ++ more)) <= 4294967293)%N ->
    registered l = Some m -> registered (l ++ more) = Some m' ->
    (forall g g', In g l -> In g' more -> g_name g' <> g_name g) ->
    compile_text L (names vars m) src = Parsed code ->
    compile_text L (names vars m') src = Parsed code /\
    forall ctx answers, converse L false (linked_in m' ctx) ctx answers code 0 [] = converse L false (linked_in m ctx) ctx answers code 0 [].
Proof.
  intros L vars l more m m' src code R NB E E' D C. split.
  - revert C. apply text_more. intros n b t. unfold names. destruct (vars n b); [auto|]. destruct (known m n) as [y|] eqn:Y; [|discriminate].
    enough (known m' n = Some y) as -> by auto. rewrite <- Y.
    change (registered (l ++ more)) with (fold_left register1 (l ++ more) (Some fm_new)) in E'.
    rewrite fold_left_app in E'. change (fold_left register1 l (Some fm_new)) with (registered l) in E'. rewrite E in E'.
    apply (more_known more m m' E'). intros g Ig.
    destruct (known_registered l fm_new m E n y Y) as [Z|(g0 & I0 & <-)]; [discriminate|]. now apply D.
  - intros ctx answers. apply converse_same. revert C. apply text_ids. intros n b t. unfold names. destruct (vars n b); [intros [= <-]; exact I|].
    destruct (known m n) as [[id k]|] eqn:Y; [|discriminate]. intros [= <-]. cbn. symmetry. eapply same_function; eassumption.
Qed.
Print Assumptions C107_expressions.

Definition C107_len : registration := {| g_name := lit "len"; g_offer := InProcess (fun _ vs => VInt (Z.of_nat (length vs))); g_args := 2 |}.
Definition C107_ask : registration := {| g_name := lit "ask"; g_offer := Elsewhere 7; g_args := 1 |}.
Definition C107_again : registration := {| g_name := lit "len"; g_offer := InProcess (fun _ _ => VInt 0); g_args := 2 |}.
Definition C107_script : list N :=
  lit "require [""vnd.stalwart.expressions"", ""variables"", ""vnd.stalwart.while""]; let ""a"" ""len('x', 1)""; if eval ""len(a, 2) > 1"" { keep; } while ""len(a, a) < 1"" { eval ""len(1, 2)""; }".
Definition C107_asks : list N := lit "require [""vnd.stalwart.expressions""]; if eval ""ask(1)"" { keep; }".
(** The code that a compiler makes with these functions. *)
Definition made (l : list registration) (script : list N) : option (list instruction) :=
  match registered l with
  | Some m => match compile (with_known K1 (known m)) script with Compiled x => Some (s_code x) | _ => None end
  | None => None
  end.
Example C107_case :
  (* the hypotheses hold *)
  (exists m m', registered [C107_len] = Some m /\ registered ([C107_len] ++ [C107_ask]) = Some m' /\
     exists f, forall ctx, linked_in m ctx 0 = Some (f ctx) /\ linked_in m' ctx 0 = Some (f ctx)) /\
  (forall g g', In g [C107_len] -> In g' [C107_ask] -> g_name g' <> g_name g) /\
  (* the script needs the function, and is compiled *)
  made [] C107_script = None /\ made [C107_len] C107_script <> None /\
  made ([C107_len] ++ [C107_ask]) C107_script = made [C107_len] C107_script /\
  (* the further function is of use to another script *)
  made [C107_len] C107_asks = None /\ made ([C107_len] ++ [C107_ask]) C107_asks <> None.
Proof.
  split; [|split; [|vm_compute; repeat split; discriminate]].
  - do 2 eexists. split; [reflexivity|]. split; [reflexivity|]. exists (fun _ vs => VInt (Z.of_nat (length vs))). intro ctx. split; reflexivity.
  - intros g g' [<-|[]] [<-|[]]. discriminate.
Qed.
(** A name that is in use is taken over: the same script then calls the newer function. *)
Theorem C107_reused_refuted :
  ~ (forall K l more m m' script x, registered l = Some m -> registered (l ++ more) = Some m' ->
       compile (with_known K (known m)) script = Compiled x -> compile (with_known K (known m')) script = Compiled x).
Proof.
  intro H. destruct (registered [C107_len]) as [m|] eqn:E; [|discriminate E].
  destruct (registered ([C107_len] ++ [C107_again])) as [m'|] eqn:E'; [|discriminate E'].
  specialize (H K1 [C107_len] [C107_again] m m' C107_script). injection E as <-. injection E' as <-.
  match type of H with forall x, _ -> _ -> compile ?A ?S = Compiled x -> _ => destruct (compile A S) as [x| | |] eqn:C; try (vm_compute in C; discriminate C) end.
  specialize (H x eq_refl eq_refl eq_refl). rewrite <- C in H. vm_compute in H. discriminate H.
Qed.
Print Assumptions C107_reused_refuted.
Example C107_expressions_case :
  let l := [C107_len; C107_ask] in let more := [{| g_name := lit "more"; g_offer := InProcess (fun _ _ => VInt 9); g_args := 0 |}] in
  let src := lit "len('x', 2) + 1" in
  room (l ++ more) /\
  match registered l, registered (l ++ more) with
  | Some m, Some m' =>
      match compile_text (C_L K1) (names (fun _ _ => None) m) src with
      | Parsed code => forall ctx, converse (C_L K1) false (linked_in m' ctx) ctx [] code 0 [] = ([], OVal (VInt 3))
      | _ => False
      end
  | _, _ => False
  end.
Proof.
  split.
  - intros g id H E. cbn in H. destruct H as [<-|[<-|[<-|[]]]]; try discriminate E. injection E as <-. cbn. lia.
  - vm_compute. reflexivity.
Qed.
