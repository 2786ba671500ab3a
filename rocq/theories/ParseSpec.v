(** Specification vocabulary for compiled scripts: which extensions an instruction
    belongs to, according to the documents that define the extensions. *)
From Verif Require Import Base Lib Var Value Comparator Event AddrTest Vacation Sieve ParseBase.
Import ListNotations.
Local Open Scope string_scope.

Definition opt (b : bool) (l : list String.string) : list String.string := if b then l else [].
Definition given {A} (o : option A) : bool := match o with Some _ => true | None => false end.
Definition nonempty_list {A} (l : list A) : bool := match l with [] => false | _ => true end.

(** RFC 5231 (relational), draft-ietf-sieve-regex, RFC 6134 (extlists) *)
Definition match_ext (m : mtype) : list String.string :=
  match m with
  | MValue _ | MCount _ => ["relational"]
  | MRegex _ => ["regex"]
  | MList => ["extlists"]
  | MIs | MContains | MMatches _ => []
  end.
(** RFC 5233 *)
Definition part_ext (p : apart) : list String.string := match p with PUser | PDetail => ["subaddress"] | _ => [] end.
(** RFC 6009 *)
Definition envelope_ext (e : envk) : list String.string :=
  match e with
  | EnvFrom | EnvTo => []
  | EnvByTimeAbsolute | EnvByTimeRelative | EnvByMode | EnvByTrace => ["envelope-deliverby"]
  | EnvNotify | EnvOrcpt | EnvRet | EnvEnvid => ["envelope-dsn"]
  end.
(** RFC 5260 (index), RFC 5703 (mime) *)
Definition index_ext (i : option Z) (anychild : bool) : list String.string := opt (given i) ["index"] ++ opt anychild ["mime"].

Definition test_ext (t : test) : list String.string :=
  match t with
  | TeTrue | TeFalse | TeSize _ _ _ | TeInvalid _ => []
  | TeHeader _ i a o _ m _ _ => index_ext i a ++ opt (match o with MvNone => false | _ => true end) ["mime"] ++ match_ext m
  | TeAddress _ i a p _ m _ _ => index_ext i a ++ part_ext p ++ match_ext m
  | TeEnvelope w p z _ m _ _ =>
      ["envelope"] ++ flat_map envelope_ext w ++ part_ext p ++ opt (given z) ["envelope-deliverby"] ++ match_ext m
  | TeExists _ a _ => opt a ["mime"]
  | TeBody _ _ _ m _ _ => ["body"] ++ match_ext m
  | TeString _ _ m _ _ => ["variables"] ++ match_ext m
  | TeEnvironment _ _ m _ _ => ["environment"] ++ match_ext m
  | TeHasFlag _ _ _ m _ => ["imap4flags"] ++ match_ext m
  | TeDate _ i a _ _ _ m _ _ => ["date"] ++ index_ext i a ++ match_ext m
  | TeCurrentDate _ _ _ m _ _ => ["date"] ++ match_ext m
  | TeDuplicate _ _ _ _ _ => ["duplicate"]
  | TeNotifyCapability _ _ _ m _ _ => ["enotify"] ++ match_ext m
  | TeValidNotify _ _ => ["enotify"]
  | TeValidExtList _ _ => ["extlists"]
  | TeIhave _ _ => ["ihave"]
  | TeMailboxExists _ _ => ["mailbox"]
  | TeMailboxIdExists _ _ => ["mailboxid"]
  | TeSpecialUse _ _ _ => ["special-use"]
  | TeMetadata (MvServer _) _ m _ _ => ["servermetadata"] ++ match_ext m
  | TeMetadata (MvMailbox _ _) _ m _ _ => ["mboxmetadata"] ++ match_ext m
  | TeMetadataExists None _ _ => ["servermetadata"]
  | TeMetadataExists (Some _) _ _ => ["mboxmetadata"]
  | TeSpam p _ m _ _ => ["spamtest"] ++ opt p ["spamtestplus"] ++ match_ext m
  | TeVirus _ m _ _ => ["virustest"] ++ match_ext m
  | TeConvert _ _ _ => ["convert"]
  | TeVacation _ _ _ p => ["vacation"] ++ match p with PSeconds _ => ["vacation-seconds"] | _ => [] end
  end.

(** RFC 8580: [:fcc] and the arguments of fileinto it takes. *)
Definition fcc_ext (f : option fccv) : list String.string :=
  match f with
  | None => []
  | Some (_, flags, mailboxid, special, create) =>
      ["fcc"] ++ opt (nonempty_list flags) ["imap4flags"] ++ opt (given mailboxid) ["mailboxid"] ++
      opt (given special) ["special-use"] ++ opt create ["mailbox"]
  end.

(** The extensions an instruction belongs to.  [mailboxid] is the extension that the
    argument [:mailboxid] of fileinto belongs to: RFC 9042 says "mailboxid". *)
Definition extensions_with (mailboxid : String.string) (i : instruction) : list String.string :=
  match i with
  | IxRequire _ | IxDiscard | IxStop | IxJmp _ | IxJz _ | IxJnz _ | IxClear _ _ _ | IxForEveryPartPop _ => []
  | IxKeep flags => opt (nonempty_list flags) ["imap4flags"]
  | IxFileInto _ flags mid special copy create =>
      ["fileinto"] ++ opt (nonempty_list flags) ["imap4flags"] ++ opt (given mid) [mailboxid] ++
      opt (given special) ["special-use"] ++ opt copy ["copy"] ++ opt create ["mailbox"]
  | IxRedirect _ copy list_ (notify, r, by_) =>
      opt copy ["copy"] ++ opt list_ ["extlists"] ++
      match notify with DsnDefault => [] | _ => ["redirect-dsn"] end ++
      match r with RetDefault => [] | _ => ["redirect-dsn"] end ++
      match by_ with ByNone => [] | _ => ["redirect-deliverby"] end
  | IxReject false _ => ["reject"]
  | IxReject true _ => ["ereject"]
  | IxTest t => test_ext t
  | IxEval _ | IxLet _ _ => ["vnd.stalwart.expressions"]
  | IxForEveryPart _ | IxForEveryPartPush => ["foreverypart"]
  | IxWhile _ _ => ["vnd.stalwart.while"]
  | IxReplace _ _ _ _ => ["replace"]
  | IxEnclose _ _ _ => ["enclose"]
  | IxExtract _ _ _ => ["extracttext"]
  | IxConvert _ _ => ["convert"]
  | IxAddHeader _ _ _ => ["editheader"]
  | IxDeleteHeader _ _ a _ m _ => ["editheader"] ++ opt a ["mime"] ++ match_ext m
  | IxSet _ _ _ => ["variables"]
  | IxNotify _ _ _ _ _ f => ["enotify"] ++ fcc_ext f
  | IxVacation _ _ _ f _ => ["vacation"] ++ fcc_ext f
  | IxEditFlags _ _ _ => ["imap4flags"]
  | IxInclude _ _ _ _ | IxReturn => ["include"]
  | IxError _ | IxInvalid _ => ["ihave"]
  end.
Definition extensions := extensions_with "mailboxid".

(** Capability [c] is required by an instruction before position [p]. *)
Definition required_before (code : list instruction) (p : nat) (c : String.string) : Prop :=
  exists q l, q < p /\ nth_error code q = Some (IxRequire l) /\ In (cap c) l.
