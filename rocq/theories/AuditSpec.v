(** Specification of what a script can cause, read off its instructions one by one. *)
From Verif Require Import Base Lib Var Value SetVar Flags Comparator Expr Event Sieve Run.
Import ListNotations.

(** The variable an instruction assigns *)
Definition assigns (i : instruction) (v : vartype) : Prop :=
  match i with
  | IxSet _ n _ | IxLet n _ | IxExtract _ _ n | IxEditFlags _ (Some n) _ => v = n
  | IxEditFlags _ None _ => v = TGlobal (lit "__flags")
  | _ => False
  end.
(** The instructions that may change the message *)
Definition edits (i : instruction) : Prop :=
  match i with
  | IxReplace _ _ _ _ | IxEnclose _ _ _ | IxConvert _ _ | IxAddHeader _ _ _ | IxDeleteHeader _ _ _ _ _ _
  | IxTest (TeConvert _ _ _) => True
  | _ => False
  end.
(** A test with ':list' *)
Definition looks_up (t : test) (c : comparator) : Prop :=
  match t with
  | TeHeader _ _ _ _ c' m _ _ | TeAddress _ _ _ _ c' m _ _ | TeEnvelope _ _ _ c' m _ _
  | TeString _ c' m _ _ | TeEnvironment _ c' m _ _ | TeDate _ _ _ _ _ c' m _ _ | TeCurrentDate _ _ c' m _ _ => m = MList /\ c = c'
  | _ => False
  end.
(** A function of the host that an expression calls *)
Definition calls (code : list instr) (id : N) : Prop := exists k n, In (IFun k n) code /\ id = (id_external - k)%N.
Definition given {X} (o : option X) : bool := match o with Some _ => true | None => false end.
(** A copy of an outgoing message is filed. *)
Definition files_copy (f : option fccv) (mailbox_id special_use : bool) (create : bool) : Prop :=
  match f with
  | Some (_, _, mid, su, cr) => mailbox_id = given mid /\ special_use = given su /\ create = cr
  | None => False
  end.

(** What an instruction may hand to the host *)
Definition causes (i : instruction) (e : event) : Prop :=
  match e with
  | EKeep _ _ => False
  | EDiscard => i = IxDiscard
  | EReject x _ => match i with IxReject x' _ => x = x' | _ => False end
  | EFileInto _ _ mid su create _ =>
      match i with
      | IxFileInto _ _ mid' su' _ create' => given mid = given mid' /\ given su = given su' /\ create = create'
      | IxNotify _ _ _ _ _ f | IxVacation _ _ _ f _ => files_copy f (given mid) (given su) create
      | _ => False
      end
  | ESend r _ _ =>
      match i, r with
      | IxRedirect _ _ list_ _, RList _ => list_ = true
      | IxRedirect _ _ list_ _, RAddress _ => list_ = false
      | IxVacation _ _ _ _ _, RAddress _ => True
      | IxNotify _ _ _ _ _ _, RGroup _ => True
      | _, _ => False
      end
  | ENotify _ _ _ _ _ => match i with IxNotify _ _ _ _ _ _ => True | _ => False end
  | ECreated _ _ => match i with IxNotify _ _ _ _ _ _ | IxVacation _ _ _ _ _ => True | _ => edits i end
  | ESetEnvelope k _ => assigns i (TEnvelope k)
  | EFunction id _ => match i with IxEval code | IxWhile code _ | IxLet _ code => calls code id | _ => False end
  | EInclude n optional =>
      match i with
      | IxInclude _ global _ optional' => optional = optional' /\ (if global then exists t, n = SGlobal t else exists t, n = SPersonal t)
      | _ => False
      end
  | EListContains _ _ c => match i with IxTest t => looks_up t c | _ => False end
  | EMailboxExists _ _ => match i with IxTest (TeMailboxExists _ _ | TeMailboxIdExists _ _ | TeSpecialUse _ _ _) => True | _ => False end
  | EDuplicateId _ _ last =>
      match i with
      | IxTest (TeDuplicate _ _ last' _ _) => last = last'
      | IxTest (TeVacation _ _ _ _) => last = false
      | _ => False
      end
  end.

(** The instruction occurs in a script that is registered or that the host hands in. *)
Definition in_play (E : renv) (inputs : list input) (i : instruction) : Prop :=
  exists x, ((exists n, E_scripts E n = Some x) \/ exists n, In (InScript n x) inputs) /\ In i (s_code x).
