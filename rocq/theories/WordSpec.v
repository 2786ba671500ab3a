(** Specification of the words of a script that have an effect. *)
From Verif Require Import Base Lib Var Value SetVar Flags Comparator Expr Event Sieve Run.
Import ListNotations.
Local Open Scope string_scope.
Local Open Scope list_scope.

(** The tests that may look up a list *)
Definition listing : list String.string := ["header"; "address"; "envelope"; "string"; "environment"; "date"; "currentdate"].
(** The commands that may set an item of the envelope *)
Definition assigning : list String.string := ["set"; "let"; "extracttext"; "setflag"; "addflag"; "removeflag"].
Definition editing : list String.string := ["replace"; "enclose"; "convert"; "addheader"; "deleteheader"].
(** The words without one of which a script does not hand out the event; a keep needs none. *)
Definition effect_words (e : event) : list String.string :=
  match e with
  | EKeep _ _ => []
  | EDiscard => ["discard"]
  | EReject false _ => ["reject"]
  | EReject true _ => ["ereject"]
  | EFileInto _ _ _ _ _ _ => ["fileinto"; "vacation"; "notify"]
  | ESend (RAddress _) _ _ => ["redirect"; "vacation"]
  | ESend (RList _) _ _ => ["redirect"]
  | ESend (RGroup _) _ _ => ["notify"]
  | ENotify _ _ _ _ _ => ["notify"]
  | ECreated _ _ => editing ++ ["vacation"; "notify"]
  | ESetEnvelope _ _ => assigning
  | EFunction _ _ => ["eval"; "while"; "let"]
  | EInclude _ _ => ["include"]
  | EListContains _ _ _ => listing
  | EMailboxExists _ _ => ["mailboxexists"; "mailboxidexists"; "specialuse_exists"]
  | EDuplicateId _ _ _ => ["duplicate"; "vacation"]
  end.
(** The script is registered or handed in by the host. *)
Definition script_in_play (E : renv) (inputs : list input) (x : sieve) : Prop :=
  (exists n, E_scripts E n = Some x) \/ exists n, In (InScript n x) inputs.
