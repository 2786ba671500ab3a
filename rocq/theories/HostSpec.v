(** Independent specification of what the host sets up. *)
From Verif Require Import Base Lib Var Value Expr ExprSpec Sieve Compile ParseBase Host.

(** *** Functions *)

(** A registration: a function of the process or a function of the host with its
    number, under a name, with a number of arguments. *)
Inductive offer := InProcess (f : hostfun) | Elsewhere (id : N).
Record registration := { g_name : text; g_offer : offer; g_args : nat }.
(** The registrations are made in turn. *)
Definition registered (l : list registration) : option fmap :=
  fold_left (fun m g => match m with
    | None => None
    | Some m => match g_offer g with
                | InProcess f => Some (with_function_args (g_name g) f (g_args g) m)
                | Elsewhere id => set_external_function (g_name g) id (g_args g) m
                end end) l (Some fm_new).
(** [g] is the last registration of its name. *)
Definition stands (l : list registration) (g : registration) : Prop :=
  exists before after, l = before ++ g :: after /\ forall g', In g' after -> g_name g' <> g_name g.
(** The numbers of the functions of the host stay clear of those of the process. *)
Definition room (l : list registration) : Prop :=
  forall g id, In g l -> g_offer g = Elsewhere id -> (id + N.of_nat (length l) <= 4294967293)%N.

(** The values of the arguments, from left to right: the calls they make, the answers left. *)
Inductive all_values (L : rustlib) fns (ctx : vctx) : list ast -> list var -> list call -> list var -> list var -> Prop :=
| av_none a : all_values L fns ctx [] a [] [] a
| av_more e es a cs v a' cs' vs rest : eval L fns ctx e a = (cs, OVal v, a') ->
    all_values L fns ctx es a' cs' vs rest -> all_values L fns ctx (e :: es) a (cs ++ cs') (v :: vs) rest.

(** *** Extensions and variables *)

Inductive setting :=
| Allow (c : capability) | Forbid (c : capability) | ForbidAll (l : list capability) | Env (n : text) (v : var).
Definition configured (version : text) (l : list setting) : rtset :=
  fold_left (fun r x => match x with
    | Allow c => set_capability c r
    | Forbid c => unset_capability c r
    | ForbidAll l => without_capabilities l r
    | Env n v => rt_set_env n v r
    end) l (rt_new version).
Inductive csetting := CEnv (n : text) (v : var) | CGlobal (n : text) (v : var).
Definition prepared (l : list csetting) (c : vctx) : vctx :=
  fold_left (fun c x => match x with CEnv n v => ctx_set_env n v c | CGlobal n v => ctx_set_global n v c end) l c.

(** The last of the settings for which [f] says something decides. *)
Definition last_of {A B} (f : A -> option B) (l : list A) : option B :=
  fold_left (fun acc x => match f x with Some b => Some b | None => acc end) l None.
Definition about_cap (c : capability) (x : setting) : option bool :=
  match x with
  | Allow d => if cap_eqb c d then Some true else None
  | Forbid d => if cap_eqb c d then Some false else None
  | ForbidAll l => if existsb (cap_eqb c) l then Some false else None
  | Env _ _ => None
  end.
Definition about_env (n : text) (x : setting) : option var :=
  match x with Env m v => if teqb n m then Some v else None | _ => None end.
Definition about_cenv (n : text) (x : csetting) : option var :=
  match x with CEnv m v => if teqb n m then Some v else None | _ => None end.
Definition about_global (n : text) (x : csetting) : option var :=
  match x with CGlobal m v => if teqb n m then Some v else None | _ => None end.
Definition first_of {A} (l : list (option A)) : option A :=
  match filter (fun x => match x with Some _ => true | None => false end) l with x :: _ => x | [] => None end.
