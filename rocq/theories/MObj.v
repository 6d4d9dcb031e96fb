(** Quaternion objects in memory: the member functions of quaternion<_F> executed statement by statement on a memory of scalar
    cells, [this] and the reference arguments being addresses, so a store into *this is seen by later loads through a reference.
    MQuat.v models the same operators as functions on values.  An object occupies four consecutive cells (haxx_def.hpp:186-190). *)
From Coq Require Import ZArith Bool.
From Verif Require Import Num Res MQuat MSimd.
Local Open Scope Z_scope.

Section O.
Context {K : num}.
Local Notation mem := (arr K).

(* haxx_def.hpp:93-99, the getters *)
Definition g_real (m : mem) (p : Z) : res K := ld m p.
(* haxx_def.hpp:95 *)
Definition g_i (m : mem) (p : Z) : res K := ld m (p + 1).
(* haxx_def.hpp:97 *)
Definition g_j (m : mem) (p : Z) : res K := ld m (p + 2).
(* haxx_def.hpp:99 *)
Definition g_k (m : mem) (p : Z) : res K := ld m (p + 3).
(* haxx_def.hpp:101, imag(): an array of three values *)
Definition g_imag (m : mem) (p : Z) : res (K * K * K) :=
  b <- ld m (p + 1) ;; c <- ld m (p + 2) ;; d <- ld m (p + 3) ;; Ok (b, c, d).
(* haxx_def.hpp:107, setters; the argument is passed by value *)
Definition s_real (m : mem) (p : Z) (x : K) : res mem := st m p x.
(* haxx_def.hpp:109 *)
Definition s_i (m : mem) (p : Z) (x : K) : res mem := st m (p + 1) x.
(* haxx_def.hpp:111 *)
Definition s_j (m : mem) (p : Z) (x : K) : res mem := st m (p + 2) x.
(* haxx_def.hpp:113 *)
Definition s_k (m : mem) (p : Z) (x : K) : res mem := st m (p + 3) x.
(* haxx_def.hpp:115-119, imag(const std::array<_F,3>&): the array is at address a *)
Definition s_imag (m : mem) (p a : Z) : res mem :=
  v <- ld m a ;; m <- st m (p + 1) v ;;
  v <- ld m (a + 1) ;; m <- st m (p + 2) v ;;
  v <- ld m (a + 2) ;; st m (p + 3) v.

(* haxx_def.hpp:50-52, quaternion(const _F& a, ...) constructing at p; a b c d: addresses of the arguments (a defaulted argument
   is a temporary holding _F(), i.e. an address whose cell holds 0) *)
Definition ctor4 (m : mem) (p a b c d : Z) : res mem :=
  v <- ld m a ;; m <- st m p v ;;
  v <- ld m b ;; m <- st m (p + 1) v ;;
  v <- ld m c ;; m <- st m (p + 2) v ;;
  v <- ld m d ;; st m (p + 3) v.
(* haxx_def.hpp:59-61, quaternion(const _CF& a, const _CF& b) *)
Definition ctor_cc (m : mem) (p a b : Z) : res mem :=
  v <- ld m a ;; m <- st m p v ;;
  v <- ld m (a + 1) ;; m <- st m (p + 1) v ;;
  v <- ld m b ;; m <- st m (p + 2) v ;;
  v <- ld m (b + 1) ;; st m (p + 3) v.
(* haxx_def.hpp:66-67, quaternion(const std::array<_F,4>& q) delegates to the first constructor with references to q[0..3] *)
Definition ctor_arr (m : mem) (p a : Z) : res mem := ctor4 m p a (a + 1) (a + 2) (a + 3).
(* haxx_def.hpp:71-72, quaternion(const std::array<_CF,2>& q) delegates to the complex constructor *)
Definition ctor_carr (m : mem) (p a : Z) : res mem := ctor_cc m p a (a + 2).
(* haxx_def.hpp:75 and 166, defaulted copy constructor / copy assignment: memberwise *)
Definition copy_obj (m : mem) (p q : Z) : res mem :=
  v <- ld m q ;; m <- st m p v ;;
  v <- ld m (q + 1) ;; m <- st m (p + 1) v ;;
  v <- ld m (q + 2) ;; m <- st m (p + 2) v ;;
  v <- ld m (q + 3) ;; st m (p + 3) v.

(* haxx_scalar_op.hpp:26-35, operator=(const _F& t); t: the address of the argument *)
Definition set_r (m : mem) (p t : Z) : res mem :=
  v <- ld m t ;; m <- st m p v ;;
  m <- st m (p + 1) n0 ;; m <- st m (p + 2) n0 ;; st m (p + 3) n0.
(* a member statement  _M_x op= t  with t read through the reference at address t *)
Definition opeq (op : K -> K -> K) (m : mem) (x t : Z) : res mem :=
  u <- ld m x ;; v <- ld m t ;; st m x (op u v).
(* haxx_scalar_op.hpp:49-54 *)
Definition addeq_r (m : mem) (p t : Z) : res mem := opeq nadd m p t.
(* haxx_scalar_op.hpp:66-71 *)
Definition subeq_r (m : mem) (p t : Z) : res mem := opeq nsub m p t.
(* haxx_scalar_op.hpp:83-92 *)
Definition muleq_r (m : mem) (p t : Z) : res mem :=
  m <- opeq nmul m p t ;; m <- opeq nmul m (p + 1) t ;; m <- opeq nmul m (p + 2) t ;; opeq nmul m (p + 3) t.
(* haxx_scalar_op.hpp:105-114 *)
Definition diveq_r (m : mem) (p t : Z) : res mem :=
  m <- opeq ndiv m p t ;; m <- opeq ndiv m (p + 1) t ;; m <- opeq ndiv m (p + 2) t ;; opeq ndiv m (p + 3) t.

(* haxx_complex_op.hpp:26-35, operator=(const _CF& ct) *)
Definition set_c (m : mem) (p t : Z) : res mem :=
  v <- ld m t ;; m <- st m p v ;;
  v <- ld m (t + 1) ;; m <- st m (p + 1) v ;;
  m <- st m (p + 2) n0 ;; st m (p + 3) n0.
(* haxx_complex_op.hpp:47-53 *)
Definition addeq_c (m : mem) (p t : Z) : res mem :=
  m <- opeq nadd m p t ;; opeq nadd m (p + 1) (t + 1).
(* haxx_complex_op.hpp:66-72 *)
Definition subeq_c (m : mem) (p t : Z) : res mem :=
  m <- opeq nsub m p t ;; opeq nsub m (p + 1) (t + 1).

(* haxx_quaternion_op.hpp:36-47, operator+= with _G = _F *)
Definition addeq_q (m : mem) (p q : Z) : res mem :=
  m <- opeq nadd m p q ;; m <- opeq nadd m (p + 1) (q + 1) ;; m <- opeq nadd m (p + 2) (q + 2) ;; opeq nadd m (p + 3) (q + 3).
(* haxx_quaternion_op.hpp:52-63 *)
Definition subeq_q (m : mem) (p q : Z) : res mem :=
  m <- opeq nsub m p q ;; m <- opeq nsub m (p + 1) (q + 1) ;; m <- opeq nsub m (p + 2) (q + 2) ;; opeq nsub m (p + 3) (q + 3).

(** x = <expression>: the operator reads its operands through references and returns a fresh object, then the defaulted copy
    assignment stores it.  Simplification: the returned object is a value, it lives outside [mem]. *)
(* haxx_def.hpp:166 with a temporary on the right *)
Definition store_obj (m : mem) (p : Z) (r : quat K) : res mem :=
  m <- st m p (qr r) ;; m <- st m (p + 1) (qi r) ;; m <- st m (p + 2) (qj r) ;; st m (p + 3) (qk r).
(* the four getter calls on a reference, haxx_def.hpp:93-99 *)
Definition load_obj (m : mem) (p : Z) : res (quat K) :=
  a <- g_real m p ;; b <- g_i m p ;; c <- g_j m p ;; d <- g_k m p ;; Ok (Quat a b c d).
(* d = x * y, haxx_quaternion_op.hpp:109-129 *)
Definition stmt_mul (m : mem) (d x y : Z) : res mem :=
  vx <- load_obj m x ;; vy <- load_obj m y ;; store_obj m d (q_mul vx vy).
(* d = x * y in an AVX build, haxx_quaternion_op.hpp:134-148 *)
Definition stmt_mul_avx (m : mem) (d x y : Z) : res mem :=
  vx <- load_obj m x ;; vy <- load_obj m y ;; store_obj m d (q_mul_avx vx vy).
(* d = x + y, haxx_quaternion_op.hpp:82-90 *)
Definition stmt_add (m : mem) (d x y : Z) : res mem :=
  vx <- load_obj m x ;; vy <- load_obj m y ;; store_obj m d (q_add vx vy).
(* d = x - y, haxx_quaternion_op.hpp:95-103 *)
Definition stmt_sub (m : mem) (d x y : Z) : res mem :=
  vx <- load_obj m x ;; vy <- load_obj m y ;; store_obj m d (q_sub vx vy).
(* d = conj(x), haxx_quaternion_reduction.hpp:37-41 *)
Definition stmt_conj (m : mem) (d x : Z) : res mem :=
  vx <- load_obj m x ;; store_obj m d (q_conj vx).
(* d = x * t, haxx_scalar_op.hpp:206-213: copy of x, then *= with the reference t, which may be a cell of x but not of the copy *)
Definition stmt_mul_r (m : mem) (d x t : Z) : res mem :=
  vx <- load_obj m x ;; v <- ld m t ;; store_obj m d (q_muleq_r vx v).
(* d = x / t, haxx_scalar_op.hpp:242-249 *)
Definition stmt_div_r (m : mem) (d x t : Z) : res mem :=
  vx <- load_obj m x ;; v <- ld m t ;; store_obj m d (q_diveq_r vx v).
End O.

(** Mixed component types: quaternion<_G> operand, quaternion<_F> result.  [cv] is the implicit conversion _G -> _F, [op2] the
    compound assignment  _F op= _G  (usual arithmetic conversions, then conversion back); objects of different types are distinct. *)
Section Mixed.
Context {F G : num}.
(* haxx_def.hpp:80-83, converting constructor, and haxx_quaternion_op.hpp:20-31, conversion assignment *)
Definition convert_obj (cv : G -> F) (mg : arr G) (m : arr F) (p q : Z) : res (arr F) :=
  v <- g_real mg q ;; m <- st m p (cv v) ;;
  v <- g_i mg q ;; m <- st m (p + 1) (cv v) ;;
  v <- g_j mg q ;; m <- st m (p + 2) (cv v) ;;
  v <- g_k mg q ;; st m (p + 3) (cv v).
(* one statement  _M_x op= q.x() *)
Definition opeq2 (op2 : F -> G -> F) (m : arr F) (x : Z) (v : G) : res (arr F) := u <- ld m x ;; st m x (op2 u v).
(* haxx_quaternion_op.hpp:36-47 and 52-63 with _G <> _F *)
Definition opeq_obj (op2 : F -> G -> F) (mg : arr G) (m : arr F) (p q : Z) : res (arr F) :=
  v <- g_real mg q ;; m <- opeq2 op2 m p v ;;
  v <- g_i mg q ;; m <- opeq2 op2 m (p + 1) v ;;
  v <- g_j mg q ;; m <- opeq2 op2 m (p + 2) v ;;
  v <- g_k mg q ;; opeq2 op2 m (p + 3) v.
End Mixed.
