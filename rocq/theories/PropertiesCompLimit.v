(** C106: the limits of the compiler only refuse. *)
From Coq Require Import Lia.
From Verif Require Import Base Lib Address Var Value SetVar Flags Comparator Message EditHeader
  Expr ExprTok Event Sieve Utf8 Lexer Scope StringTok Compile ParseArgs ParseBase Parse CompLimitSpec ParseLimit PropertiesParse.
Import ListNotations.

(** With greater limits the compiler makes the same of every script that it accepts. *)
Theorem C106_greater_limits_partial :
  forall K blocks tests includes name header size script x,
    l_blocks (C_lim K) <= blocks -> l_tests (C_lim K) <= tests -> l_includes (C_lim K) <= includes ->
    C_name K <= name -> C_hsize K <= header -> C_script K <= size ->
    compile K script = Compiled x ->
    compile (with_limits K blocks tests includes name header size) script = Compiled x.
Proof. intros K b t i n h z script x Hb Ht Hi Hn Hh Hz. exact (compile_with_more K b t i n h z Hb Ht Hi Hn Hh Hz _ script x). Qed.
Print Assumptions C106_greater_limits_partial.
(** Two compilers with different limits, whichever is greater, never disagree about a script
    that both accept. *)
Theorem C106_agree_partial :
  forall K b1 t1 i1 n1 h1 z1 b2 t2 i2 n2 h2 z2 script x1 x2,
    compile (with_limits K b1 t1 i1 n1 h1 z1) script = Compiled x1 ->
    compile (with_limits K b2 t2 i2 n2 h2 z2) script = Compiled x2 -> x1 = x2.
Proof.
  intros K b1 t1 i1 n1 h1 z1 b2 t2 i2 n2 h2 z2 script x1 x2 H1 H2.
  apply (C106_greater_limits_partial _ (b1 + b2) (t1 + t2) (i1 + i2) (n1 + n2) (h1 + h2) (z1 + z2)) in H1; cbn; try lia.
  apply (C106_greater_limits_partial _ (b1 + b2) (t1 + t2) (i1 + i2) (n1 + n2) (h1 + h2) (z1 + z2)) in H2; cbn; try lia.
  change (with_limits (with_limits K b2 t2 i2 n2 h2 z2) (b1 + b2) (t1 + t2) (i1 + i2) (n1 + n2) (h1 + h2) (z1 + z2))
    with (with_limits (with_limits K b1 t1 i1 n1 h1 z1) (b1 + b2) (t1 + t2) (i1 + i2) (n1 + n2) (h1 + h2) (z1 + z2)) in H2.
  rewrite H1 in H2. now injection H2.
Qed.
Print Assumptions C106_agree_partial.
Definition sample : list N :=
  lit "require [""include"", ""variables"", ""editheader""]; global ""abcd""; if anyof(true, not allof(false, true)) { if true { include ""x""; addheader ""X-A"" ""abcde""; } }".
Definition accepts (K : cenv) (script : list N) : bool := match compile K script with Compiled _ => true | _ => false end.
Example C106_case :
  (* blocks, tests, includes, names below 5 bytes, values up to 5 bytes, and the script itself: just enough *)
  accepts (with_limits K1 2 2 1 5 5 (length sample)) sample = true /\
  compile (with_limits K1 2 2 1 5 5 (length sample)) sample = compile K1 sample /\
  (* and each of them one less *)
  map (fun K => accepts K sample)
    [with_limits K1 1 2 1 5 5 (length sample); with_limits K1 2 1 1 5 5 (length sample); with_limits K1 2 2 0 5 5 (length sample);
     with_limits K1 2 2 1 4 5 (length sample); with_limits K1 2 2 1 5 4 (length sample); with_limits K1 2 2 1 5 5 (length sample - 1)] =
  [false; false; false; false; false; false].
Proof. vm_compute. repeat split. Qed.

(** Not so for max_nested_foreverypart: the number of open loops is compared with the limit for equality. *)
Definition loops : list N :=
  lit "require [""foreverypart"", ""mime""]; foreverypart { foreverypart { if true { foreverypart { if true { foreverypart { stop; } } } } } }".
Theorem C106_foreverypart_refuted :
  ~ (forall K fep script x, l_fep (C_lim K) <= fep -> compile K script = Compiled x -> compile (with_fep K fep) script = Compiled x).
Proof.
  intro H. specialize (H (with_fep K1 1) 2 loops).
  destruct (compile (with_fep K1 1) loops) as [x| | |] eqn:C; try (vm_compute in C; discriminate C).
  specialize (H x ltac:(cbn; lia) eq_refl). vm_compute in H. discriminate H.
Qed.
Print Assumptions C106_foreverypart_refuted.

(** Nor for max_string_size: a string that is too long is passed over behind a block, and its bytes
    are then read as a word. *)
Definition quoted : list N := lit "if true { stop; } ""keep"";".
Theorem C106_string_size_refuted :
  ~ (forall K size script x, C_string K <= size -> compile K script = Compiled x -> compile (with_string K size) script = Compiled x).
Proof.
  intro H. specialize (H (with_string K1 4) 5 quoted).
  destruct (compile (with_string K1 4) quoted) as [x| | |] eqn:C; try (vm_compute in C; discriminate C).
  specialize (H x ltac:(cbn; lia) eq_refl). vm_compute in H. discriminate H.
Qed.
Print Assumptions C106_string_size_refuted.
Example C106_quoted_keep :
  match compile (with_string K1 4) quoted with Compiled x => existsb (fun i => match i with IxKeep _ => true | _ => false end) (s_code x) | _ => false end = true.
Proof. vm_compute. reflexivity. Qed.
