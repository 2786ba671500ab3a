(** Properties C87 (functions of the host) and C88 (settings of the host). *)
From Verif Require Import Base Lib Var Value Expr ExprSpec ExprProofs Sieve Compile ParseBase SetProofs Host HostSpec.
Local Open Scope string_scope.
Local Open Scope list_scope.

(** *** C87: functions *)

Definition mstep (m : option fmap) (g : registration) : option fmap :=
  match m with
  | None => None
  | Some m => match g_offer g with
              | InProcess f => Some (with_function_args (g_name g) f (g_args g) m)
              | Elsewhere id => set_external_function (g_name g) id (g_args g) m
              end
  end.
Lemma registered_snoc l g : registered (l ++ [g]) = mstep (registered l) g.
Proof. unfold registered. rewrite fold_left_app. reflexivity. Qed.

(** What a registration comes to. *)
Definition offered (m : fmap) (g : registration) (id : N) : Prop :=
  fun_id id /\
  match g_offer g with
  | InProcess f => forall ctx, linked_in m ctx id = Some (f ctx)
  | Elsewhere k => (forall ctx, linked_in m ctx id = None) /\ (id_external - id)%N = k
  end.

Lemma linked_none m ctx id : N.to_nat id >= length (fm_fns m) -> linked_in m ctx id = None.
Proof. intros H. unfold linked_in. rewrite (proj2 (nth_error_None _ _) H). reflexivity. Qed.
Lemma offered_grow m m' g id : (exists fs, fm_fns m' = fm_fns m ++ fs /\
    (match g_offer g with InProcess _ => True | Elsewhere k => N.to_nat id >= length (fm_fns m') end)) ->
  offered m g id -> offered m' g id.
Proof.
  intros (fs & E & B) [F H]. split; [exact F|]. destruct (g_offer g) as [f|k].
  - intros ctx. specialize (H ctx). unfold linked_in in *. rewrite E.
    destruct (nth_error (fm_fns m) (N.to_nat id)) eqn:X; [|discriminate]. rewrite nth_error_app1 by (apply nth_error_Some; congruence).
    rewrite X. exact H.
  - split; [|tauto]. intros ctx. apply linked_none. exact B.
Qed.

Definition lim (l : list registration) (n : nat) : Prop :=
  forall g id, In g l -> g_offer g = Elsewhere id -> (id + N.of_nat n <= 4294967293)%N.
Lemma map_grows : forall l n, (N.of_nat n <= 4294967293)%N -> length l <= n -> lim l n ->
  exists m, registered l = Some m /\ length (fm_fns m) <= length l /\
  (forall g, stands l g -> exists id, known m (g_name g) = Some (id, g_args g) /\ offered m g id) /\
  (forall name, (forall g, In g l -> g_name g <> name) -> known m name = None).
Proof.
  induction l as [|g l IH] using rev_ind; intros n NB LN R.
  - exists fm_new. repeat split; auto. intros g (b & a & E & _). destruct b; discriminate.
  - rewrite app_length in LN |- *. cbn in LN |- *.
    destruct (IH n NB ltac:(lia) (fun g' id I => R g' id (in_or_app _ _ _ (or_introl I)))) as (m & E & LE & K & U). clear IH.
    rewrite registered_snoc, E. cbn [mstep].
    (* the earlier ones keep standing *)
    assert (Old : forall m' id0, fm_map m' = (g_name g, id0) :: fm_map m -> (exists fs, fm_fns m' = fm_fns m ++ fs /\ length (fm_fns m') <= n) ->
      forall g', stands (l ++ [g]) g' -> g' = g \/ exists id, known m' (g_name g') = Some (id, g_args g') /\ offered m' g' id).
    { intros m' id0 EM (fs & EF & LF) g' (b & a & EL & NA).
      destruct a as [|x a _] using rev_ind.
      - apply app_inj_tail in EL as [_ <-]. left. reflexivity.
      - right. rewrite app_comm_cons, app_assoc in EL. apply app_inj_tail in EL as [EL <-].
        destruct (K g') as (id & EK & O).
        { exists b, a. split; [exact EL|]. intros y Y. apply NA. apply in_or_app. left. exact Y. }
        exists id. split.
        + unfold known in *. rewrite EM. cbn [fm_get].
          destruct (teqb (g_name g') (g_name g)) eqn:T; [|exact EK]. apply teqb_spec in T.
          exfalso. apply (NA g); [apply in_or_app; right; left; reflexivity|congruence].
        + apply (offered_grow m); [|exact O]. exists fs. split; [exact EF|].
          destruct (g_offer g') as [f|k] eqn:EO; auto. destruct O as [_ O]. rewrite EO in O. destruct O as [_ O].
          assert (In g' (l ++ [g])) by (apply in_or_app; left; rewrite EL; apply in_or_app; right; left; reflexivity).
          pose proof (R g' k H EO). unfold id_external in O. lia. }
    assert (Unk : forall m' id0, fm_map m' = (g_name g, id0) :: fm_map m -> forall name,
      (forall g', In g' (l ++ [g]) -> g_name g' <> name) -> known m' name = None).
    { intros m' id0 EM name H. unfold known. rewrite EM. cbn [fm_get].
      destruct (teqb name (g_name g)) eqn:T.
      - apply teqb_spec in T. destruct (H g); [apply in_or_app; right; left; reflexivity|congruence].
      - apply U. intros g' I. apply H. apply in_or_app. left. exact I. }
    destruct (g_offer g) as [f|k] eqn:EO.
    + eexists. split; [reflexivity|]. cbn [fm_fns with_function_args]. rewrite app_length. cbn [length]. split; [lia|]. split.
      * intros g' S. destruct (Old (with_function_args (g_name g) f (g_args g) m) _ eq_refl) with (g' := g') as [-> |X]; auto.
        { eexists. split; [reflexivity|]. cbn. rewrite app_length. cbn. lia. }
        assert (SM : (N.of_nat (length (fm_fns m)) mod 2 ^ 32 = N.of_nat (length (fm_fns m)))%N) by (apply N.mod_small; lia).
        exists (N.of_nat (length (fm_fns m))). split.
        -- unfold known. cbn [fm_map with_function_args fm_get]. rewrite teqb_refl, SM. reflexivity.
        -- split; [unfold fun_id, id_array_access, id_array_build; lia|]. rewrite EO. intros ctx. unfold linked_in. cbn [fm_fns with_function_args].
           rewrite Nat2N.id, nth_error_app2, Nat.sub_diag by lia. reflexivity.
      * eapply Unk. reflexivity.
    + assert (B : (k + N.of_nat n <= 4294967293)%N) by (apply (R g k); [apply in_or_app; right; left; reflexivity|exact EO]).
      unfold set_external_function. destruct (N.leb_spec k id_external); [|unfold id_external in *; lia].
      eexists. split; [reflexivity|]. cbn [fm_fns]. split; [lia|]. split.
      * intros g' S. edestruct (Old {| fm_map := (g_name g, ((id_external - k)%N, g_args g)) :: fm_map m; fm_fns := fm_fns m |}) with (g' := g') as [-> |X]; eauto.
        { reflexivity. } { exists []. rewrite app_nil_r. cbn. split; [reflexivity|lia]. }
        exists (id_external - k)%N. split.
        -- unfold known. cbn [fm_map fm_get]. rewrite teqb_refl. reflexivity.
        -- unfold id_external in *. split; [unfold fun_id, id_array_access, id_array_build; lia|]. rewrite EO. split; [|unfold id_external in *; lia].
           intros ctx. apply linked_none. cbn. lia.
      * eapply Unk. reflexivity.
Qed.

Lemma eval_call L fns ctx id es ans cs vs rest : all_values L fns ctx es ans cs vs rest ->
  eval L fns ctx (EFun id es) ans =
  match fns id with
  | Some g => (cs, OVal (g vs), rest)
  | None => match rest with
            | [] => (cs ++ [((id_external - id)%N, vs)], OWait, [])
            | v :: rest' => (cs ++ [((id_external - id)%N, vs)], OVal v, rest')
            end
  end.
Proof.
  intros H. cbn [eval].
  match goal with |- ?go es [] ans = _ => set (G := go) end.
  enough (X : forall acc, G es acc ans = match fns id with
     | Some g => (cs, OVal (g (acc ++ vs)), rest)
     | None => match rest with
            | [] => (cs ++ [((id_external - id)%N, acc ++ vs)], OWait, [])
            | v :: rest' => (cs ++ [((id_external - id)%N, acc ++ vs)], OVal v, rest')
            end end) by exact (X []).
  induction H as [a|e es a cs v a' cs' vs rest E H IH]; intros acc.
  - cbn. rewrite app_nil_r. destruct (fns id); [reflexivity|]. destruct a; reflexivity.
  - change (G (e :: es) acc a) with (andthen (eval L fns ctx e a) (fun v a' => G es (acc ++ [v]) a')).
    rewrite E. cbn [andthen]. rewrite IH. rewrite <- !app_assoc. cbn [app].
    destruct (fns id); [reflexivity|]. destruct rest; rewrite ?app_assoc; reflexivity.
Qed.

(** After any registrations, a name the compiler knows calls what was last registered under
    it, with that many arguments and the values of the arguments in order; a function of the
    host is called by its own number and gives the next answer. *)
Theorem C87_functions_partial : forall l, room l -> (N.of_nat (length l) <= 4294967293)%N ->
  exists m, registered l = Some m /\
  (forall name, (forall g, In g l -> g_name g <> name) -> known m name = None) /\
  (forall g, stands l g -> exists id, known m (g_name g) = Some (id, g_args g) /\
     forall ts es, exprs false ts es -> length es = g_args g ->
     exists code, parse (TFun id (g_args g) :: TOpen :: ts ++ [TClose]) = Parsed code /\
     forall L ctx ans calls vs rest, all_values L (linked_in m ctx) ctx es ans calls vs rest ->
       converse L false (linked_in m ctx) ctx ans code 0 [] =
       match g_offer g with
       | InProcess f => (calls, OVal (f ctx vs))
       | Elsewhere k => (calls ++ [(k, vs)], match rest with v :: _ => OVal v | [] => OWait end)
       end).
Proof.
  intros l R NB. destruct (map_grows l (length l) NB (le_n _) R) as (m & E & _ & K & U).
  exists m. split; [exact E|]. split; [exact U|]. intros g S. destruct (K g S) as (id & EK & F & O).
  exists id. split; [exact EK|]. intros ts es X LE. exists (comp (EFun id es)). split.
  - rewrite <- LE. apply (parse_compiles 9). apply x_call; assumption.
  - intros L ctx ans calls vs rest V. rewrite (conv_comp L false), (eval_call _ _ _ _ _ _ _ _ _ V).
    destruct (g_offer g) as [f|k]; [rewrite O; reflexivity|]. destruct O as [O <-]. rewrite O. destruct rest; reflexivity.
Qed.
Print Assumptions C87_functions_partial.

(** The compiler resolves a name that is no variable by [known], and the runtime
    finds [linked_in]: see [token_map] and [exec]. *)
Definition C87_two : list registration :=
  [{| g_name := lit "len"; g_offer := InProcess (fun _ _ => VInt 0); g_args := 1 |};
   {| g_name := lit "ask"; g_offer := Elsewhere 7; g_args := 2 |};
   {| g_name := lit "len"; g_offer := InProcess (fun _ vs => VInt (Z.of_nat (length vs))); g_args := 2 |}].
Example C87_ex : room C87_two /\ stands C87_two {| g_name := lit "ask"; g_offer := Elsewhere 7; g_args := 2 |} /\
  option_map (fun m => (known m (lit "ask"), known m (lit "len"), known m (lit "x"))) (registered C87_two) =
  Some (Some (4294967286%N, 2), Some (1%N, 2), None).
Proof.
  split; [|split; [|reflexivity]].
  - intros g id H. cbn in H. intuition; subst; cbn in *; try discriminate. injection H0 as <-. cbn. lia.
  - exists [{| g_name := lit "len"; g_offer := InProcess (fun _ _ => VInt 0); g_args := 1 |}],
      [{| g_name := lit "len"; g_offer := InProcess (fun _ vs => VInt (Z.of_nat (length vs))); g_args := 2 |}].
    split; [reflexivity|]. intros g' [<-|[]]. discriminate.
Qed.

(** Finding: a function of the host with a large number is taken for one of the process,
    and the largest numbers overflow. *)
Theorem C87_large_number_refuted :
  exists l m id, registered l = Some m /\ stands l {| g_name := lit "ask"; g_offer := Elsewhere 4294967293; g_args := 0 |} /\
    known m (lit "ask") = Some (id, 0) /\ forall ctx, linked_in m ctx id <> None.
Proof.
  exists [{| g_name := lit "len"; g_offer := InProcess (fun _ _ => VInt 0); g_args := 1 |};
          {| g_name := lit "ask"; g_offer := Elsewhere 4294967293; g_args := 0 |}].
  eexists. exists 0%N. split; [reflexivity|]. split; [|split; [reflexivity|]].
  - exists [{| g_name := lit "len"; g_offer := InProcess (fun _ _ => VInt 0); g_args := 1 |}], []. split; [reflexivity|]. intros g' [].
  - intros ctx. discriminate.
Qed.
Print Assumptions C87_large_number_refuted.
Theorem C87_overflow_refuted :
  exists id, (id < 2 ^ 32)%N /\ registered [{| g_name := lit "ask"; g_offer := Elsewhere id; g_args := 0 |}] = None.
Proof. exists 4294967294%N. split; reflexivity. Qed.
Print Assumptions C87_overflow_refuted.

(** *** C88: settings *)

Lemma cap_eqb_spec a b : cap_eqb a b = true <-> a = b.
Proof.
  destruct a as [| |n|n], b as [| |n'|n']; cbn; try (split; congruence).
  - rewrite Nat.eqb_eq. split; congruence.
  - rewrite teqb_spec. split; congruence.
Qed.
Lemma cap_eqb_sym a b : cap_eqb a b = cap_eqb b a.
Proof. apply Bool.eq_true_iff_eq. rewrite !cap_eqb_spec. split; congruence. Qed.
Lemma unset_has c d l : existsb (cap_eqb c) (filter (fun x => negb (cap_eqb d x)) l) = if cap_eqb c d then false else existsb (cap_eqb c) l.
Proof.
  induction l as [|x l IH]; [destruct (cap_eqb c d); reflexivity|]. cbn [filter existsb].
  destruct (cap_eqb d x) eqn:X; cbn [negb existsb]; rewrite IH.
  - apply cap_eqb_spec in X. subst. destruct (cap_eqb c x) eqn:Y; reflexivity.
  - destruct (cap_eqb c d) eqn:Y; [|reflexivity]. apply cap_eqb_spec in Y. subst. rewrite X. reflexivity.
Qed.
Lemma without_has c : forall l r, existsb (cap_eqb c) (rt_caps (without_capabilities l r)) = if existsb (cap_eqb c) l then false else existsb (cap_eqb c) (rt_caps r).
Proof.
  unfold without_capabilities. induction l as [|d l IH]; intros r; [reflexivity|]. cbn [fold_left existsb]. rewrite IH.
  cbn [unset_capability rt_caps]. rewrite unset_has. destruct (cap_eqb c d), (existsb (cap_eqb c) l); reflexivity.
Qed.
Lemma without_env : forall l r, rt_env (without_capabilities l r) = rt_env r.
Proof. unfold without_capabilities. induction l as [|d l IH]; intros r; [reflexivity|]. cbn. rewrite IH. reflexivity. Qed.

Lemma last_of_snoc {A B} (f : A -> option B) l x : last_of f (l ++ [x]) = match f x with Some b => Some b | None => last_of f l end.
Proof. unfold last_of. rewrite fold_left_app. reflexivity. Qed.
Definition sstep (r : rtset) (x : setting) : rtset :=
  match x with
  | Allow c => set_capability c r
  | Forbid c => unset_capability c r
  | ForbidAll l => without_capabilities l r
  | Env n v => rt_set_env n v r
  end.
Lemma configured_snoc v l x : configured v (l ++ [x]) = sstep (configured v l) x.
Proof. unfold configured. rewrite fold_left_app. reflexivity. Qed.

(** An extension is allowed if the last setting about it allows it; without any, all but
    two are. *)
Theorem C88_extensions : forall version l c,
  existsb (cap_eqb c) (rt_caps (configured version l)) =
  match last_of (about_cap c) l with
  | Some b => b
  | None => existsb (cap_eqb c) all_capabilities
  end.
Proof.
  intros version l c. induction l as [|x l IH] using rev_ind; [reflexivity|].
  rewrite configured_snoc, last_of_snoc. destruct x as [d|d|k|n v]; cbn [sstep about_cap].
  - cbn [set_capability rt_caps existsb]. destruct (cap_eqb c d); auto.
  - cbn [unset_capability rt_caps]. rewrite unset_has. destruct (cap_eqb c d); auto.
  - rewrite without_has. destruct (existsb (cap_eqb c) k); auto.
  - exact IH.
Qed.
Print Assumptions C88_extensions.
Theorem C88_default_extensions : forall n, In n known_caps \/ n = lit "variables" \/ n = lit "encoded-character" ->
  existsb (cap_eqb (parse_cap n)) all_capabilities = negb (teqb n (lit "vnd.stalwart.while") || teqb n (lit "vnd.stalwart.expressions")).
Proof.
  intros n H.
  assert (X : forallb (fun n => Bool.eqb (existsb (cap_eqb (parse_cap n)) all_capabilities) (negb (teqb n (lit "vnd.stalwart.while") || teqb n (lit "vnd.stalwart.expressions"))))
    (known_caps ++ [lit "variables"; lit "encoded-character"]) = true) by (vm_compute; reflexivity).
  rewrite forallb_forall in X. apply Bool.eqb_prop. apply X. apply in_or_app. cbn. intuition.
Qed.
Print Assumptions C88_default_extensions.

(** A variable of the environment is what was last set for the message, else what was last
    set for the runtime, else a built-in; a global variable is what was last set. *)
Lemma env_configured version l n : alookup n (rt_env (configured version l)) =
  first_of [last_of (about_env n) l; alookup n (rt_env (rt_new version))].
Proof.
  induction l as [|x l IH] using rev_ind.
  { unfold first_of. cbn [last_of fold_left filter configured]. destruct (alookup n (rt_env (rt_new version))); reflexivity. }
  rewrite configured_snoc, last_of_snoc. destruct x as [d|d|k|m v]; cbn [sstep about_env]; rewrite ?without_env; try exact IH.
  cbn [rt_set_env rt_env]. destruct (teqb n m) eqn:T.
  - apply teqb_spec in T. subst. rewrite alookup_same. reflexivity.
  - rewrite alookup_other; [exact IH|]. intros ->. rewrite teqb_refl in T. discriminate.
Qed.
Theorem C88_variables : forall version l msg m n,
  let c := prepared m (ctx_new (configured version l) msg) in
  variable c (TEnvironment n) =
    first_of [last_of (about_cenv n) m; last_of (about_env n) l;
              if teqb n (lit "name") then Some (VStr (lit "Stalwart Sieve")) else None;
              if teqb n (lit "version") then Some (VStr version) else None] /\
  variable c (TGlobal n) = last_of (about_global n) m /\ ctx_global c n = last_of (about_global n) m.
Proof.
  intros version l msg m n. cbv zeta.
  enough (H : alookup n (c_env (prepared m (ctx_new (configured version l) msg))) = last_of (about_cenv n) m /\
              alookup n (c_global (prepared m (ctx_new (configured version l) msg))) = last_of (about_global n) m /\
              c_rtenv (prepared m (ctx_new (configured version l) msg)) = rt_env (configured version l)).
  { destruct H as (A & B & C). unfold ctx_global. cbn [variable]. rewrite A, B, C, env_configured. repeat split.
    unfold first_of. cbn [filter rt_new rt_env alookup].
    destruct (last_of (about_cenv n) m); [reflexivity|]. destruct (last_of (about_env n) l); [reflexivity|].
    destruct (teqb n (lit "name")); [reflexivity|]. destruct (teqb n (lit "version")); reflexivity. }
  induction m as [|x m IH] using rev_ind; [repeat split|].
  unfold prepared in *. rewrite fold_left_app, !last_of_snoc. cbn [fold_left]. destruct IH as (A & B & C).
  assert (X : forall k v t, alookup n (ainsert k v t) = if teqb n k then Some v else alookup n t).
  { intros k v t. destruct (teqb n k) eqn:T; [apply teqb_spec in T; subst; apply alookup_same|].
    apply alookup_other. intros ->. rewrite teqb_refl in T. discriminate. }
  destruct x as [k v|k v]; cbn [about_cenv about_global ctx_set_env ctx_set_global c_env c_global c_rtenv]; rewrite ?X;
    repeat split; auto; destruct (teqb n k); auto.
Qed.
Print Assumptions C88_variables.
Example C88_ex :
  let r := configured (lit "0.7.0") [Env (lit "host") (VStr (lit "a")); Forbid (cap "reject"); Env (lit "host") (VStr (lit "b")); Allow (cap "vnd.stalwart.while")] in
  let c := prepared [CEnv (lit "name") (VStr (lit "n")); CGlobal (lit "g") (VInt 1)] (ctx_new r (fun _ => None)) in
  variable c (TEnvironment (lit "host")) = Some (VStr (lit "b")) /\ variable c (TEnvironment (lit "name")) = Some (VStr (lit "n")) /\
  variable c (TEnvironment (lit "version")) = Some (VStr (lit "0.7.0")) /\
  existsb (cap_eqb (cap "reject")) (rt_caps r) = false /\ existsb (cap_eqb (cap "vnd.stalwart.while")) (rt_caps r) = true.
Proof. repeat split; vm_compute; reflexivity. Qed.
