(** Compiled scripts: src/compiler/grammar/instruction.rs, test.rs and the action
    and test structures of src/compiler/grammar/actions and tests. *)
From Verif Require Import Base Lib Address Var Value SetVar Flags Comparator Message EditHeader
  Expr Event AddrTest Vacation.

(** grammar/mod.rs 31-81 [Capability].  Simplification: all supported capabilities but the two
    the library treats specially are numbered. *)
Inductive capability := CapVariables | CapEncoded | CapKnown (n : nat) | CapOther (name : text).
(** grammar/mod.rs 31-81: the derived [PartialEq] of [Capability]. *)
Definition cap_eqb (a b : capability) : bool :=
  match a, b with
  | CapVariables, CapVariables | CapEncoded, CapEncoded => true
  | CapKnown x, CapKnown y => Nat.eqb x y
  | CapOther x, CapOther y => teqb x y
  | _, _ => false
  end.

(** grammar/actions/action_mime.rs 83-89 [MimeOpts<Value>] *)
Inductive mimev := MvNone | MvType | MvSubtype | MvContentType | MvParam (params : list value).
(** grammar/tests/test_duplicate.rs 44-48 [DupMatch] *)
Inductive dupmatch := DupHeader (name : value) | DupUnique (id : value) | DupDefault.
(** grammar/tests/test_body.rs 44-48 [BodyTransform] *)
Inductive bodytransform := BtRaw | BtText | BtContent (types : list value).
(** lib.rs 177-180 [Metadata<Value>] *)
Inductive metadatav := MvServer (annotation : value) | MvMailbox (name annotation : value).

(** grammar/test.rs 48-112 [Test] and the structures it holds.  The last argument
    [neg] is the field [is_not].  Simplification: the non-standard [:subject]
    argument of body is left out. *)
Inductive test :=
| TeTrue | TeFalse
| TeHeader (names : list value) (index : option Z) (anychild : bool) (opts : mimev)
           (c : comparator) (m : mtype) (keys : list value) (neg : bool)
| TeAddress (names : list value) (index : option Z) (anychild : bool) (p : apart)
            (c : comparator) (m : mtype) (keys : list value) (neg : bool)
| TeEnvelope (wanted : list envk) (p : apart) (z : option Z)
             (c : comparator) (m : mtype) (keys : list value) (neg : bool)
| TeExists (names : list value) (anychild : bool) (neg : bool)
| TeSize (over : bool) (limit : nat) (neg : bool)
| TeBody (bt : bodytransform) (subject : bool) (c : comparator) (m : mtype) (keys : list value) (neg : bool)
| TeString (sources : list value) (c : comparator) (m : mtype) (keys : list value) (neg : bool)
| TeEnvironment (sources : list value) (c : comparator) (m : mtype) (keys : list value) (neg : bool)
| TeHasFlag (vars : list vartype) (flags : list value) (c : comparator) (m : mtype) (neg : bool)
| TeDate (name : value) (index : option Z) (anychild : bool) (p : datepart) (z : zone)
         (c : comparator) (m : mtype) (keys : list value) (neg : bool)
| TeCurrentDate (z : option Z) (p : datepart) (c : comparator) (m : mtype) (keys : list value) (neg : bool)
| TeDuplicate (d : dupmatch) (handle : option value) (last : bool) (seconds : option N) (neg : bool)
| TeNotifyCapability (uri cap : value) (c : comparator) (m : mtype) (keys : list value) (neg : bool)
| TeValidNotify (uris : list value) (neg : bool)
| TeValidExtList (names : list value) (neg : bool)
| TeIhave (caps : list capability) (neg : bool)
| TeMailboxExists (names : list value) (neg : bool)
| TeMailboxIdExists (ids : list value) (neg : bool)
| TeSpecialUse (mailbox : option value) (attributes : list value) (neg : bool)
| TeMetadata (md : metadatav) (c : comparator) (m : mtype) (keys : list value) (neg : bool)
| TeMetadataExists (mailbox : option value) (annotations : list value) (neg : bool)
| TeSpam (percent : bool) (c : comparator) (m : mtype) (key : value) (neg : bool)
| TeVirus (c : comparator) (m : mtype) (key : value) (neg : bool)
| TeConvert (from to : value) (neg : bool)
| TeVacation (addresses : list value) (handle : option value) (reason : value) (p : period)
| TeInvalid (name : text).

(** lib.rs 260-266 [FileCarbonCopy<Value>], built in grammar/actions/action_fileinto.rs [Fcc]: folder,
    flags, mailbox id, special use, create *)
Definition fccv := (value * list value * option value * option value * bool)%type.

(** grammar/instruction.rs 48-109 [Instruction] and the structures it holds.
    Simplification: the
    parameters of the convert action are left out (they are not used). *)
Inductive instruction :=
| IxRequire (caps : list capability)
| IxKeep (flags : list value)
| IxFileInto (folder : value) (flags : list value) (mailbox_id special_use : option value) (copy create : bool)
| IxRedirect (address : value) (copy list_ : bool) (opts : sendopts value)
| IxDiscard
| IxStop
| IxReject (extended : bool) (reason : value)
| IxJmp (p : nat) | IxJz (p : nat) | IxJnz (p : nat)
| IxTest (t : test)
| IxEval (code : list instr)
| IxClear (match_vars : N) (idx num : nat)
| IxForEveryPart (jz : nat) | IxForEveryPartPush | IxForEveryPartPop (n : nat)
| IxWhile (code : list instr) (jz : nat)
| IxLet (name : vartype) (code : list instr)
| IxReplace (subject from : option value) (replacement : value) (mime : bool)
| IxEnclose (headers : list value) (subject : option value) (body : value)
| IxExtract (mods : list modifier) (first : option nat) (name : vartype)
| IxConvert (from to : value)
| IxAddHeader (name v : value) (last : bool)
| IxDeleteHeader (name : value) (index : option Z) (anychild : bool) (c : comparator) (m : mtype) (patterns : list value)
| IxSet (mods : list modifier) (name : vartype) (v : value)
| IxNotify (method : value) (from importance : option value) (options : list value) (message : option value)
           (fcc : option fccv)
| IxVacation (subject from : option value) (mime : bool) (fcc : option fccv) (reason : value)
| IxEditFlags (a : flag_action) (name : option vartype) (flags : list value)
| IxInclude (name : value) (global once optional : bool)
| IxReturn
| IxError (message : value)
| IxInvalid (name : text).

(** lib.rs 35-39 [Sieve]: a compiled script. *)
Record sieve := {
  s_code : list instruction;
  s_vars : nat;              (* num_vars *)
  s_match_vars : nat         (* num_match_vars *)
}.
