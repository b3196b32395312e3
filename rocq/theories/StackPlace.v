(** Model: where make_worker_context_with_properties puts the control block of a fiber. Machine words are numbers below 2^w; every operation wraps explicitly. *)
From Coq Require Import NArith.
Open Scope N_scope.

(** Subtraction of std::uintptr_t / std::size_t with [w] bits. *)
Definition wsub (w a b : N) : N := (a + (2 ^ w - b mod 2 ^ w)) mod 2 ^ w.
(** context.hpp:498: ~ static_cast< uintptr_t >( 0xff) *)
Definition mask (w : N) : N := N.lnot 255 w.
(** context.hpp:496-498; [sp] = sctx.sp, the upper end of the stack, [sz] = sizeof( context_t). *)
Definition storage (w sp sz : N) : N := N.land (wsub w sp sz) (mask w).
(** context.hpp:499-500; [ssize] = sctx.size. *)
Definition stack_bottom (w sp ssize : N) : N := wsub w sp ssize.
(** context.hpp:501: the size handed to boost::context together with [storage] as the top of the stack (line 507). *)
Definition size (w sp ssize sz : N) : N := wsub w (storage w sp sz) (stack_bottom w sp ssize).
