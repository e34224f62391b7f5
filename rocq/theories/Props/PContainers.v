(* C01 Stack, C02 Deque, C03 Delay, C04 BipBuffer *)
From Verif Require Import Proofs.BaseLemmas Proofs.ContainerProofs
  Model.Stack Model.Deque Model.Delay Model.BipBuffer.
Open Scope Z_scope.

(** C01: every sequence of API calls on a fresh Stack<TYPE, SIZE> returns exactly what the list
    specification returns; it aborts by assertion exactly when the list specification rejects the
    call, and is never undefined. *)
Theorem C01_stack_is_bounded_lifo :
  forall (A : Type) (SIZE : Z), 0 < SIZE ->
  forall ops : list (stack_op A),
    observe (run (stack_step SIZE) (stack_new SIZE) ops)
    = observe (run (stack_spec SIZE) [] ops).
Proof. exact @stack_refines. Qed.
Print Assumptions C01_stack_is_bounded_lifo.

Example C01_example :
  observe (run (stack_step 2) (stack_new 2) [SPush 7; SPush 8; SFull; STop; SFirst; SPop; STop; SSize])
  = Ok [RVoid; RVoid; RBool true; RVal 8; RVal 7; RVoid; RVal 7; RInt 1].
Proof. reflexivity. Qed.
Example C01_example_abort :
  observe (run (stack_step 2) (stack_new 2) [SPush 7; SPush 8; SPush 9]) = AssertFail.
Proof. reflexivity. Qed.

(** C02: the same for Deque<TYPE, SIZE> against a list from front to back. *)
Theorem C02_deque_is_bounded_deque :
  forall (A : Type) (SIZE : Z), 0 < SIZE ->
  forall ops : list (deque_op A),
    observe (run (deque_step SIZE) (deque_new SIZE) ops)
    = observe (run (deque_spec SIZE) [] ops).
Proof. exact @deque_refines. Qed.
Print Assumptions C02_deque_is_bounded_deque.

Example C02_example :
  observe (run (deque_step 3) (deque_new 3)
    [DPushBack 1; DPushFront 2; DPushBack 3; DFull; DFront; DBack; DPopFront; DFront; DPopBack; DBack])
  = Ok [RVoid; RVoid; RVoid; RBool true; RVal 2; RVal 3; RVoid; RVal 1; RVoid; RVal 1].
Proof. reflexivity. Qed.
Example C02_example_abort :
  observe (run (deque_step 3) (deque_new 3) [DPushBack 1; DPopFront; DBack]) = AssertFail.
Proof. reflexivity. Qed.

(** C03: Delay<TYPE, NUM>(init) outputs NUM times init followed by the inputs, in order. *)
Theorem C03_delay_is_exact_delay :
  forall (A : Type) (NUM : Z), 0 < NUM ->
  forall (init : A) (xs : list A),
    observe (run (delay_call NUM) (delay_new NUM init) xs)
    = Ok (firstn (length xs) (repeat init (Z.to_nat NUM) ++ xs)).
Proof. exact @delay_outputs. Qed.
Print Assumptions C03_delay_is_exact_delay.

Example C03_example :
  observe (run (delay_call 2) (delay_new 2 0) [1; 2; 3; 4; 5]) = Ok [0; 0; 1; 2; 3].
Proof. reflexivity. Qed.

(** C04: after every call BipBuffer's pointer gives in-bounds read access to NUM contiguous cells
    that are exactly the last NUM inputs, oldest first (zeros before the first inputs); reading
    them is never out of bounds. *)
Theorem C04_bip_buffer_is_contiguous_window :
  forall (A : Type) (NUM : Z), 0 < NUM ->
  forall (zero : A) (xs : list A),
    observe (run (bip_step NUM) (bip_new NUM zero) xs)
    = Ok (map (window (Z.to_nat NUM) zero) (prefixes xs)).
Proof.
  intros A NUM H zero xs. destruct (@bip_run_inv A NUM H zero xs) as (b & E & _).
  exact (f_equal observe E).
Qed.
Print Assumptions C04_bip_buffer_is_contiguous_window.

(** C04, second part: the no-argument call returns the same view without changing anything. *)
Theorem C04_bip_buffer_peek :
  forall (A : Type) (NUM : Z), 0 < NUM ->
  forall (zero : A) (xs : list A),
    exists b,
      run (bip_step NUM) (bip_new NUM zero) xs
        = Ok (b, map (window (Z.to_nat NUM) zero) (prefixes xs)) /\
      bip_view NUM b (bip_ptr b) = Ok (window (Z.to_nat NUM) zero xs).
Proof.
  intros A NUM H zero xs. destruct (@bip_run_inv A NUM H zero xs) as (b & E & HI).
  exists b. exact (conj E (bip_view_inv NUM H zero xs b HI)).
Qed.
Print Assumptions C04_bip_buffer_peek.

Example C04_example :
  observe (run (bip_step 3) (bip_new 3 0) [1; 2; 3; 4; 5])
  = Ok [[0;0;1]; [0;1;2]; [1;2;3]; [2;3;4]; [3;4;5]].
Proof. reflexivity. Qed.
