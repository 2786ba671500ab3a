(** Specification of the reports of envelope changes. *)
From Verif Require Import Base Lib Var Value SetVar Flags Event Mime Sieve Run RunSpec.

(** The envelope changes reported by a list of events. *)
Definition reports (l : list event) : list (envk * text) :=
  flat_map (fun e => match e with ESetEnvelope k t => [(k, t)] | _ => [] end) l.

(** The last value given for an envelope item. *)
Fixpoint latest (k : envk) (l : list (envk * text)) : option text :=
  match l with
  | [] => None
  | (k', t) :: l' => match latest k l' with
                     | Some u => Some u
                     | None => if envk_eqb k' k then Some t else None
                     end
  end.

(** Instructions other than [let] and the flag actions applied to an envelope item. *)
Definition at_once (i : instruction) : Prop :=
  match i with IxLet (TEnvelope _) _ | IxEditFlags _ (Some (TEnvelope _)) _ => False | _ => True end.
Definition all_at_once (x : sieve) : Prop := Forall at_once (s_code x).

(** The envelope item an executed instruction assigns, with the text assigned. *)
Definition changed_item (E : renv) (x : entry) : list (envk * text) :=
  match x with
  | (IxSet mods (TEnvelope k) v, s) =>
      [(k, v_text (E_L E) (limit (E_L E) (E_max_var E)
             (apply_mods (E_L E) (E_max_var E) (vw E s) mods (eval_value (E_L E) (vw E s) v))))]
  | (IxExtract mods first (TEnvelope k), s) =>
      [(k, extract_text (E_L E) (mime_env E s) (match r_iters s with [] => false | _ => true end) first
             (E_max_var E) (vw E s) mods (r_part s) (r_msg s))]
  | _ => []
  end.
