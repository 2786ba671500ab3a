(** Model of the events a script run hands to its host: lib.rs 181-245 [Event]. *)
From Verif Require Import Base Lib Var Value Comparator.

(** lib.rs 140-144 [Script] *)
Inductive script_name := SPersonal (n : text) | SGlobal (n : text).
(** lib.rs 140-144: the derived [PartialEq] of [Script]. *)
Definition script_name_eqb (a b : script_name) : bool :=
  match a, b with
  | SPersonal x, SPersonal y | SGlobal x, SGlobal y => teqb x y
  | _, _ => false
  end.

(** lib.rs 284-289 [Recipient] *)
Inductive recipient := RAddress (a : text) | RList (l : text) | RGroup (l : list text).
(** lib.rs 269-274 [Importance] *)
Inductive importance := IHigh | INormal | ILow.

(** lib.rs 298-301 [Mailbox] *)
Inductive mailbox := MbName (n : text) | MbId (n : text).

(** compiler/grammar/actions/action_redirect.rs 42-110 [NotifyItem], [Notify], [Ret],
    [ByMode], [ByTime<T>]: the delivery options of a message. *)
Inductive dsn_item := DsnSuccess | DsnFailure | DsnDelay.
(** compiler/grammar/actions/action_redirect.rs 58-62 [Notify]. *)
Inductive dsn := DsnDefault | DsnNever | DsnItems (l : list dsn_item).
(** compiler/grammar/actions/action_redirect.rs 73-77 [Ret]. *)
Inductive retc := RetFull | RetHdrs | RetDefault.
(** compiler/grammar/actions/action_redirect.rs 120-124 [ByMode]. *)
Inductive bymode := ByNotify | ByReturn | ByDefault.
(** compiler/grammar/actions/action_redirect.rs 97-109 [ByTime<T>]. *)
Inductive bytime (A : Type) :=
| ByNone
| ByRelative (rlimit : N) (m : bymode) (trace : bool)
| ByAbsolute (alimit : A) (m : bymode) (trace : bool).
Arguments ByNone {A}. Arguments ByRelative {A}. Arguments ByAbsolute {A}.
(** lib.rs 229-235: the fields [notify], [return_of_content] and [by_time] of [Event::SendMessage]. *)
Definition sendopts (A : Type) := (dsn * retc * bytime A)%type.
(** action_notify.rs 235-237 and action_vacation.rs 312-314 (runtime/actions): the
    options of generated messages *)
Definition quiet_opts : sendopts Z := (DsnNever, RetDefault, ByNone).

(** lib.rs 181-245 [Event].  Simplification: the bytes of a created message are the
    text they encode. *)
Inductive event :=
| EInclude (name : script_name) (optional : bool)
| EMailboxExists (mailboxes : list mailbox) (special_use : list text)
| EListContains (lists values : list text) (cmp : comparator)
| EDuplicateId (id : text) (expiry : N) (last : bool)
| ESetEnvelope (e : envk) (v : text)
| EFunction (id : N) (args : list var)
| EKeep (flags : list text) (id : nat)
| EDiscard
| EReject (extended : bool) (reason : text)
| EFileInto (folder : text) (flags : list text) (mailbox_id special_use : option text) (create : bool) (id : nat)
| ESend (r : recipient) (opts : sendopts Z) (id : nat)
| ENotify (from : option text) (i : importance) (options : list text) (message method : text)
| ECreated (id : nat) (message : text).
