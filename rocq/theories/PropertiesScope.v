(** Properties of the variables of a script: slots, scopes and names. *)
From Verif Require Import Base Lib Address Var Value SetVar Flags Comparator Message EditHeader Expr Event
  Notify Vacation Spam AddrTest Mime Sieve Run Scope ScopeSpec ScopeRun ScopeProofs ScopeProofs2 ScopeProofs3.
Local Open Scope nat_scope.

(** The ASCII instance used in the examples is as Rust's [to_lowercase]. *)
Example ascii_lower_ok : lower_ok ascii_lib /\ lower_ascii_ok ascii_lib.
Proof. split; intros t; [apply lower_idem|reflexivity]. Qed.

(** C29.  At any point [s] of an accepted script: different variables are in different
    slots; every slot is in the frame that the script gets; the end of the block clears
    exactly the slots of the variables that are not visible after it; and as long as a
    variable is visible it is in the same slot. *)
Theorem C29_slots : forall L umax max_name before after s f,
  lower_ok L ->
  vsteps L umax max_name before v_start = Some s -> vsteps L umax max_name after s = Some f ->
  length (before ++ after) <= umax ->
  (forall n m x y, lower_text n <> lower_text m ->
     slot_of umax (last_id f) n s = Some x -> slot_of umax (last_id f) m s = Some y -> x <> y) /\
  (forall n x, slot_of umax (last_id f) n s = Some x -> x < num_vars f) /\
  (forall s' idx num, close_block s = Some (s', (idx, num)) ->
     forall x, idx <= x < idx + num <->
               exists n, slot_of umax (last_id f) n s = Some x /\ parse_plain n s' = None) /\
  (forall o s' n v, vstep L umax max_name o s = Some s' -> parse_plain n s = Some v ->
     parse_plain n s' = Some v \/ parse_plain n s' = None).
Proof.
  intros L umax mx before after s f low H1 H2 Hl. rewrite app_length in Hl.
  pose proof (steps_ok L umax mx before 0 _ _ (start_ok umax) ltac:(lia) H1) as O.
  pose proof (steps_ok L umax mx after _ _ _ O ltac:(lia) H2) as [_ (r & R1 & R2 & R3)].
  pose proof (steps_tidy L low umax mx before _ _ start_tidy H1) as T.
  pose proof (steps_grow L umax mx after _ _ H2) as (G1 & G2).
  assert (S : last_id f + v_loc f <= umax) by (unfold last_id; lia).
  split; [|split; [|split]].
  - intros n m x y D. eapply slots_apart; eauto. lia.
  - intros n x. unfold num_vars. eapply slots_inside; eauto.
  - intros s' idx num C x. eapply close_clears; eauto.
  - intros o s' n v. eapply step_stable; eauto.
Qed.
Print Assumptions C29_slots.

(** C29, an example: [set "a" ""; if true { set "b" ""; set :local "c" ""; HERE
    set "d" ""; } if true { set "e" ""; }]. *)
Definition v_ops1 : list vop := [OAssign (lit "A") false; OOpen; OAssign (lit "b") false; OAssign (lit "c") true].
Definition v_ops2 : list vop := [OAssign (lit "d") false; OClose; OOpen; OAssign (lit "e") false; OClose].
Definition v_at (ops : list vop) : vst :=
  match vsteps ascii_lib 100 32 ops v_start with Some s => s | None => v_start end.
Example C29_slots_ex :
  let s := v_at v_ops1 in let f := v_at (v_ops1 ++ v_ops2) in
  vsteps ascii_lib 100 32 v_ops1 v_start = Some s /\ vsteps ascii_lib 100 32 v_ops2 s = Some f /\
  length (v_ops1 ++ v_ops2) <= 100 /\
  map (fun n => slot_of 100 (last_id f) (lit n) s) ["a"; "B"; "c"; "d"]%string = [Some 0; Some 1; Some 3; None] /\
  num_vars f = 4 /\
  (exists s', close_block s = Some (s', (1, 1)) /\
     map (fun n => parse_plain (lit n) s') ["a"; "b"; "c"]%string = [Some (TLocal 0); None; Some (TLocal 100)]).
Proof.
  cbn zeta. split; [reflexivity|]. split; [reflexivity|]. split; [cbn; lia|]. split; [reflexivity|].
  split; [reflexivity|]. eexists. split; reflexivity.
Qed.

(** C30, first part.  A script with at most 256 assignments gets a frame that the runtime
    accepts. *)
Theorem C30_frame_partial : forall L umax max_name ops f,
  vsteps L umax max_name ops v_start = Some f -> length (filter is_assign ops) <= 256 ->
  num_vars f <= 256.
Proof. intros L umax mx ops f H Hl. apply frame_size in H. cbn in H. lia. Qed.
Print Assumptions C30_frame_partial.

(** C63.  Apart from [:local], [break], [continue] and [return] inside blocks, what the
    slots do is lexical scoping: every string observed is the one that the meaning with
    named variables and scopes gives, whichever branches are taken and however often
    loops are repeated. *)
Theorem C63_scopes_partial : forall L umax max_size others script code f ds,
  lower_ascii_ok L -> plain_cmds script ->
  code_cmds L umax script v_start = Some (code, f) ->
  snd (srun L max_size others code (fresh_frame (num_vars f), ds, [])) =
  snd (nrun (fun t => v_text L (limit L max_size (VStr t))) script ([[]], ds, [])).
Proof. intros. eapply slots_are_scopes; eauto. Qed.
Print Assumptions C63_scopes_partial.

(** [set "a" "1"; while (twice) { use "${b}"; set "B" "<${a}>"; set "a" "${b}2"; use "${a}"; }
     if ... { set "c" ""; use "${b}${c}${a}"; }] *)
Definition v_prog : vcmds :=
  let a := lit "a" in let b := lit "b" in
  VCons (VSet a [PLit (lit "1")])
  (VCons (VBlock
    (VCons (VUse [PRef b])
    (VCons (VSet (lit "B") [PLit (lit "<"); PRef a; PLit (lit ">")])
    (VCons (VSet a [PRef b; PLit (lit "2")])
    (VCons (VUse [PRef a]) VNil)))))
  (VCons (VBlock
    (VCons (VSet (lit "c") [])
    (VCons (VUse [PRef b; PRef (lit "c"); PRef a]) VNil))) VNil)).
Definition no_ctx : vctx :=
  {| c_local := []; c_match := []; c_global := []; c_env := []; c_rtenv := []; c_envelope := []; c_message := fun _ => None |}.
Example C63_scopes_ex :
  plain_cmds v_prog /\
  exists code f, code_cmds ascii_lib 100 v_prog v_start = Some (code, f) /\ num_vars f = 2 /\
    snd (srun ascii_lib 64 no_ctx code (fresh_frame 2, [2; 1], [])) =
    [[]; lit "<1>2"; []; lit "<<1>2>2"; lit "<<1>2>2"].
Proof.
  split.
  - cbn. repeat split; try (repeat constructor); intros [H|[]]; discriminate H.
  - do 2 eexists. split; [reflexivity|]. split; reflexivity.
Qed.

(** C64.  Names of variables are case-insensitive: after an assignment to [n], every
    spelling of [n] denotes the variable assigned.  This part: a name that is not declared
    global. *)
Theorem C64_case_partial : forall L umax max_name ops s n m as_local i s',
  lower_ok L -> lower_ascii_ok L ->
  vsteps L umax max_name ops v_start = Some s ->
  register_variable L umax n as_local s = Some (TLocal i, s') ->
  is_ascii n -> lower_text m = lower_text n ->
  parse_plain m s' = Some (TLocal i).
Proof.
  intros L umax mx ops s n m l i s' low lowa H R An E.
  eapply assigned_visible; eauto.
  - eapply steps_tidy; eauto. apply start_tidy.
  - rewrite E. symmetry. apply lowa. auto.
Qed.
Print Assumptions C64_case_partial.
Example C64_case_ex :
  exists s', register_variable ascii_lib 100 (lit "AbC") false (v_at v_ops1) = Some (TLocal 2, s') /\
             parse_plain (lit "aBc") s' = Some (TLocal 2).
Proof. eexists. split; reflexivity. Qed.

(** C64 fails for a name that is declared global: [global "A"; set "A" "x";] assigns the
    global variable "a", and "${A}" reads the global variable "A", another one. *)
Theorem C64_case_refuted : forall umax max_name, 1 < max_name ->
  exists s v s', vsteps ascii_lib umax max_name [OGlobal (lit "A")] v_start = Some s /\
    register_variable ascii_lib umax (lit "A") false s = Some (v, s') /\
    parse_plain (lit "A") s' = Some (TGlobal (lit "A")) /\ v = TGlobal (lit "a") /\
    forall c x, variable (fst (set_variable ascii_lib 64 c v x)) (TGlobal (lit "A")) = variable c (TGlobal (lit "A")).
Proof.
  intros umax mx H. exists (register_global_var (lit "A") v_start). eexists. eexists.
  split. { destruct mx as [|[|mx]]; [lia|lia|reflexivity]. }
  split; [reflexivity|]. split; [reflexivity|]. split; [reflexivity|].
  intros c x. change (str_lower ascii_lib (lit "A")) with (lit "a"). cbn [set_variable fst variable set_global c_global].
  induction (c_global c) as [|[k w] l IH]; [reflexivity|]. cbn [ainsert].
  destruct (teqb (lit "a") k) eqn:E.
  - apply teqb_spec in E. subst k. reflexivity.
  - cbn [alookup]. destruct (teqb (lit "A") k); auto.
Qed.
Print Assumptions C64_case_refuted.
