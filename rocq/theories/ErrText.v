(** Model of the names of extensions, src/compiler/grammar/mod.rs 31-81, 508-517, 619-736, and of
    the texts of the errors of a run, src/compiler/mod.rs 573-600. *)
From Verif Require Import Base Lib Var.
Import ListNotations.
Local Open Scope string_scope.
Local Open Scope list_scope.

(** grammar/mod.rs 147-153 [Comparator] *)
Inductive comparator_name := Elbonia | Octet | AsciiCaseMap | AsciiNumeric | OtherComparator (s : text).
(** grammar/mod.rs 31-81 [Capability] *)
Inductive capname :=
| Envelope | EnvelopeDsn | EnvelopeDeliverBy | FileInto | EncodedCharacter | OfComparator (c : comparator_name)
| OtherCapability (s : text) | Body | Convert | Copy | Relational | Date | Index | Duplicate | Variables | EditHeader
| ForEveryPart | Mime | Replace | Enclose | ExtractText | Enotify | RedirectDsn | RedirectDeliverBy | Environment
| Reject | Ereject | ExtLists | SubAddress | Vacation | VacationSeconds | Fcc | Mailbox | MailboxId | MboxMetadata
| ServerMetadata | SpecialUse | Imap4Flags | Ihave | ImapSieve | Include | Regex | SpamTest | SpamTestPlus | VirusTest
| Expressions | While.

(** grammar/mod.rs 681-736 [lookup_capabilities], the table. *)
Definition cap_table : list (String.string * capname) := [
  ("envelope", Envelope); ("envelope-dsn", EnvelopeDsn); ("envelope-deliverby", EnvelopeDeliverBy);
  ("fileinto", FileInto); ("encoded-character", EncodedCharacter);
  ("comparator-elbonia", OfComparator Elbonia); ("comparator-i;octet", OfComparator Octet);
  ("comparator-i;ascii-casemap", OfComparator AsciiCaseMap); ("comparator-i;ascii-numeric", OfComparator AsciiNumeric);
  ("body", Body); ("convert", Convert); ("copy", Copy); ("relational", Relational); ("date", Date); ("index", Index);
  ("duplicate", Duplicate); ("variables", Variables); ("editheader", EditHeader); ("foreverypart", ForEveryPart);
  ("mime", Mime); ("replace", Replace); ("enclose", Enclose); ("extracttext", ExtractText); ("enotify", Enotify);
  ("redirect-dsn", RedirectDsn); ("redirect-deliverby", RedirectDeliverBy); ("environment", Environment);
  ("reject", Reject); ("ereject", Ereject); ("extlists", ExtLists); ("subaddress", SubAddress); ("vacation", Vacation);
  ("vacation-seconds", VacationSeconds); ("fcc", Fcc); ("mailbox", Mailbox); ("mailboxid", MailboxId);
  ("mboxmetadata", MboxMetadata); ("servermetadata", ServerMetadata); ("special-use", SpecialUse);
  ("imap4flags", Imap4Flags); ("ihave", Ihave); ("imapsieve", ImapSieve); ("include", Include); ("regex", Regex);
  ("spamtest", SpamTest); ("spamtestplus", SpamTestPlus); ("virustest", VirusTest);
  ("vnd.stalwart.while", While); ("vnd.stalwart.expressions", Expressions)].
(** grammar/mod.rs 681-736 [lookup_capabilities] *)
Definition lookup_capabilities (s : text) : option capname :=
  option_map snd (find (fun e => teqb s (lit (fst e))) cap_table).

(** (Rust core library): [str::strip_prefix]. *)
Fixpoint strip_prefix (p s : text) : option text :=
  match p, s with
  | [], _ => Some s
  | a :: p', b :: s' => if N.eqb a b then strip_prefix p' s' else None
  | _ :: _, [] => None
  end.

(** grammar/mod.rs 509-517 [Capability::parse] *)
Definition parse_capability (s : text) : capname :=
  match lookup_capabilities s with
  | Some c => c
  | None => match strip_prefix (lit "comparator-") s with
            | Some c => OfComparator (OtherComparator c)
            | None => OtherCapability s
            end
  end.

(** grammar/mod.rs 619-679 [Capability::fmt] *)
Definition show_capability (c : capname) : text :=
  match c with
  | Envelope => lit "envelope" | EnvelopeDsn => lit "envelope-dsn" | EnvelopeDeliverBy => lit "envelope-deliverby"
  | FileInto => lit "fileinto" | EncodedCharacter => lit "encoded-character"
  | OfComparator Elbonia => lit "comparator-elbonia" | OfComparator Octet => lit "comparator-i;octet"
  | OfComparator AsciiCaseMap => lit "comparator-i;ascii-casemap"
  | OfComparator AsciiNumeric => lit "comparator-i;ascii-numeric"
  | OfComparator (OtherComparator s) => s
  | Body => lit "body" | Convert => lit "convert" | Copy => lit "copy" | Relational => lit "relational"
  | Date => lit "date" | Index => lit "index" | Duplicate => lit "duplicate" | Variables => lit "variables"
  | EditHeader => lit "editheader" | ForEveryPart => lit "foreverypart" | Mime => lit "mime" | Replace => lit "replace"
  | Enclose => lit "enclose" | ExtractText => lit "extracttext" | Enotify => lit "enotify"
  | RedirectDsn => lit "redirect-dsn" | RedirectDeliverBy => lit "redirect-deliverby" | Environment => lit "environment"
  | Reject => lit "reject" | Ereject => lit "ereject" | ExtLists => lit "extlists" | SubAddress => lit "subaddress"
  | Vacation => lit "vacation" | VacationSeconds => lit "vacation-seconds" | Fcc => lit "fcc" | Mailbox => lit "mailbox"
  | MailboxId => lit "mailboxid" | MboxMetadata => lit "mboxmetadata" | ServerMetadata => lit "servermetadata"
  | SpecialUse => lit "special-use" | Imap4Flags => lit "imap4flags" | Ihave => lit "ihave" | ImapSieve => lit "imapsieve"
  | Include => lit "include" | Regex => lit "regex" | SpamTest => lit "spamtest" | SpamTestPlus => lit "spamtestplus"
  | VirusTest => lit "virustest" | While => lit "vnd.stalwart.while" | Expressions => lit "vnd.stalwart.expressions"
  | OtherCapability s => s
  end.

(** runtime/mod.rs 46-53 [RuntimeError]; grammar/mod.rs 179-183 [Invalid]: name, line and position. *)
Inductive runerr :=
| TooManyIncludes
| InvalidInstruction (name : text) (line pos : nat)
| ScriptErrorMessage (s : text)
| CapabilityNotAllowed (c : capname)
| CapabilityNotSupported (s : text)
| CPULimitReached.

(** runtime/context.rs 358-371 [Instruction::Require]: the error for an extension that the runtime
    does not allow. *)
Definition require_error (c : capname) : runerr :=
  match c with OtherCapability s => CapabilityNotSupported s | _ => CapabilityNotAllowed c end.

Section Text.
  (** (Rust core library): [str] printed with [{:?}]. *)
  Variable debug : text -> text.
  (** compiler/mod.rs 573-600 [RuntimeError::fmt].  Lines 577-583: the position is printed as the
      line and the line as the column. *)
  Definition show_error (e : runerr) : text :=
    match e with
    | TooManyIncludes => []
    | InvalidInstruction name line pos =>
        lit "Script executed invalid instruction " ++ debug name ++ lit " at line " ++ show_Z (Z.of_nat pos) ++
        lit ", column " ++ show_Z (Z.of_nat line) ++ lit "."
    | ScriptErrorMessage s => lit "Script reported error " ++ debug s ++ lit "."
    | CapabilityNotAllowed c => lit "Capability '" ++ show_capability c ++ lit "' has been disabled."
    | CapabilityNotSupported s => lit "Capability '" ++ s ++ lit "' not supported."
    | CPULimitReached => lit "Script exceeded the maximum number of instructions allowed to execute."
    end.
End Text.
