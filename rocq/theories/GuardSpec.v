(** Specification vocabulary for the enforcement of 'require'. *)
From Verif Require Import Base Lib Var Value Event Sieve ParseBase Parse ParseSpec Run.
Import ListNotations.
Local Open Scope string_scope.
Local Open Scope list_scope.

(** Scripts the compiler made, with any settings, and with the checks on. *)
Definition written (x : sieve) : Prop := exists K script, compile K script = Compiled x.
Definition checked (x : sieve) : Prop := exists K script, C_nocheck K = false /\ compile K script = Compiled x.

(** The runtime of [E] allows the extension [c]. *)
Definition allows (E : renv) (c : String.string) : Prop := existsb (cap_eqb (cap c)) (E_caps E) = true.

(** The extensions an event takes: one of each list.  A copy of an automatic reply is
    filed by ':fcc'. *)
Definition event_needs (e : event) : list (list String.string) :=
  match e with
  | EFileInto _ _ mailbox_id special_use create _ =>
      [["fileinto"; "fcc"]] ++ (if given mailbox_id then [["mailboxid"; "mailbox"]] else []) ++
      (if given special_use then [["special-use"]] else []) ++ (if create then [["mailbox"]] else [])
  | EReject false _ => [["reject"]]
  | EReject true _ => [["ereject"]]
  | ENotify _ _ _ _ _ => [["enotify"]]
  | ESend (RList _) _ _ => [["extlists"]]
  | _ => []
  end.
