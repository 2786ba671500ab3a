(** Compilers that differ in their limits only. *)
From Verif Require Import Base Compile ParseBase.

(** The compiler [K] with other values for max_nested_blocks, max_nested_tests, max_includes,
    max_variable_name_size, max_header_size and max_script_size. *)
Definition with_limits (K : cenv) (blocks tests includes name header script : nat) : cenv :=
  {| C_L := C_L K; C_M := C_M K; C_dec := C_dec K; C_regex := C_regex K; C_fns := C_fns K; C_umax := C_umax K;
     C_lim := {| l_blocks := blocks; l_tests := tests; l_fep := l_fep (C_lim K); l_includes := includes |};
     C_string := C_string K; C_name := name; C_hsize := header; C_script := script; C_nocheck := C_nocheck K |}.
(** Likewise for max_nested_foreverypart. *)
Definition with_fep (K : cenv) (fep : nat) : cenv :=
  {| C_L := C_L K; C_M := C_M K; C_dec := C_dec K; C_regex := C_regex K; C_fns := C_fns K; C_umax := C_umax K;
     C_lim := {| l_blocks := l_blocks (C_lim K); l_tests := l_tests (C_lim K); l_fep := fep; l_includes := l_includes (C_lim K) |};
     C_string := C_string K; C_name := C_name K; C_hsize := C_hsize K; C_script := C_script K; C_nocheck := C_nocheck K |}.
(** Likewise for max_string_size. *)
Definition with_string (K : cenv) (size : nat) : cenv :=
  {| C_L := C_L K; C_M := C_M K; C_dec := C_dec K; C_regex := C_regex K; C_fns := C_fns K; C_umax := C_umax K;
     C_lim := C_lim K; C_string := size; C_name := C_name K; C_hsize := C_hsize K; C_script := C_script K; C_nocheck := C_nocheck K |}.
