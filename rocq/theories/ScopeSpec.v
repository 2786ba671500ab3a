(** What the slots of variables are for, independently of how they are chosen. *)
From Verif Require Import Base Lib Var Value Scope.

(** Rust's [str::to_lowercase] leaves no ASCII capital. *)
Definition lower_ok (L : rustlib) : Prop := forall t, lower_text (str_lower L t) = str_lower L t.
(** On ASCII it is the ASCII one. *)
Definition is_ascii (t : text) : Prop := Forall (fun c => (c < 128)%N) t.
Definition lower_ascii_ok (L : rustlib) : Prop := forall t, is_ascii t -> str_lower L t = lower_text t.

(** The slot of the running script's frame in which a reference to [n], at the point
    [s] of the script, finds its value; [last] is the value of [last_id] at the end of
    the script. *)
Definition slot_of (umax last : nat) (n : text) (s : vst) : option nat :=
  match parse_plain n s with
  | Some v => match map_var umax last v with TLocal k => Some k | _ => None end
  | None => None
  end.

(** *** Named variables

    A script that sets and uses variables, with its blocks; the meaning has a stack of
    scopes and no slots. *)
Inductive vpiece := PLit (t : text) | PRef (n : text).
Inductive vcmd :=
| VSet (n : text) (v : list vpiece)      (* set "n" "..." *)
| VUse (v : list vpiece)                 (* any use of a string, observed *)
| VBlock (b : vcmds)                     (* if, elsif, else, while, foreverypart *)
with vcmds := VNil | VCons (c : vcmd) (cs : vcmds).

(** Scopes, innermost first. *)
Definition scope := list (text * text).
Fixpoint sfind (n : text) (s : scope) : option text :=
  match s with
  | [] => None
  | (m, v) :: s' => if teqb n m then Some v else sfind n s'
  end.
(** A variable that has not been set is the empty string. *)
Fixpoint value_of (n : text) (e : list scope) : text :=
  match e with
  | [] => []
  | s :: e' => match sfind n s with Some v => v | None => value_of n e' end
  end.
Fixpoint denotes (e : list scope) (v : list vpiece) : text :=
  match v with
  | [] => []
  | PLit t :: v' => t ++ denotes e v'
  | PRef n :: v' => value_of (lower_text n) e ++ denotes e v'
  end.
Fixpoint sput (n v : text) (s : scope) : scope :=
  match s with
  | [] => [(n, v)]
  | (m, w) :: s' => if teqb n m then (m, v) :: s' else (m, w) :: sput n v s'
  end.
(** An assignment changes the visible variable of that name, or makes a new one in the
    innermost scope. *)
Fixpoint assign_visible (n v : text) (e : list scope) : option (list scope) :=
  match e with
  | [] => None
  | s :: e' => match sfind n s with
               | Some _ => Some (sput n v s :: e')
               | None => option_map (cons s) (assign_visible n v e')
               end
  end.
Definition assign_named (n v : text) (e : list scope) : list scope :=
  match assign_visible n v e with
  | Some e' => e'
  | None => match e with s :: e' => ((n, v) :: s) :: e' | [] => [[(n, v)]] end
  end.

(** [ds]: how often each block that is met is entered (0 for a branch not taken, 1 for
    one taken, any number for a loop); a block met when [ds] is exhausted is skipped.
    The result: the scopes, what is left of [ds], and the strings observed. *)
Section Named.
(** What is kept of a string that is assigned: the runtime limits its size. *)
Variable cut : text -> text.
Definition nstate := (list scope * list nat * list text)%type.
Fixpoint nrun_cmd (c : vcmd) (st : nstate) : nstate :=
  match c, st with
  | VSet n v, (e, ds, out) => (assign_named (lower_text n) (cut (denotes e v)) e, ds, out)
  | VUse v, (e, ds, out) => (e, ds, out ++ [denotes e v])
  | VBlock b, (e, ds, out) =>
      match ds with
      | [] => (e, [], out)
      | d :: ds' =>
          Nat.iter d (fun st => match st with
                                | (e, ds, out) =>
                                    match nrun b ([] :: e, ds, out) with
                                    | (e', ds', out') => (tl e', ds', out')
                                    end
                                end) (e, ds', out)
      end
  end
with nrun (cs : vcmds) (st : nstate) : nstate :=
  match cs with
  | VNil => st
  | VCons c cs' => nrun cs' (nrun_cmd c st)
  end.
End Named.

(** The names that are assigned are ASCII, and none is in a namespace. *)
Definition plain_name (n : text) : Prop := is_ascii n /\ ~ In c_dot n.
Fixpoint plain_cmd (c : vcmd) : Prop :=
  match c with
  | VSet n _ => plain_name n
  | VUse _ => True
  | VBlock b => plain_cmds b
  end
with plain_cmds (cs : vcmds) : Prop :=
  match cs with VNil => True | VCons c cs' => plain_cmd c /\ plain_cmds cs' end.
