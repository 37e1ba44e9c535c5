(** References and memory in the functions of the extension module
    /repo/electrode/transformations.c.

    Each function is transcribed as the sequence of its steps that take or give
    up a reference, a block of memory, the interpreter lock or the exception
    indicator, or that follow a pointer.  Arithmetic is left out; a test on
    numbers, shapes or types becomes a free choice, so every run of the C code
    is a run of the program below for some sequence of choices, and every place
    at which a conversion or an allocation may fail is there.  Loops over array
    elements take and give up nothing: they appear as one use of the pointers
    they follow.

    Not modelled: addresses are never reused after an object has been released
    (so that following a released pointer is always seen as such), other
    threads changing counts while the lock is released, Python 2. *)
From Coq Require Import List String Arith Bool.
Import ListNotations.
Open Scope string_scope.
Open Scope list_scope.

(** ** The machine *)

(** Objects and blocks of memory are numbered. *)
Definition obj := nat.

(** Values of the C variables: NULL, a pointer to an object, a block from PyMem_Malloc. *)
Inductive ptr := Null | Ref (o : obj) | Buf (b : nat).

(** What a parameter of a call was given: nothing, None, a string, something else. *)
Inductive kind := KMissing | KNone | KText | KOther.
Inductive arg := Missing | Arg (k : kind) (o : obj).

(** Numbers of references to each object and of live blocks at each address, the
    variables of the function, the next free number, whether the interpreter
    lock is held, whether an exception is set, and how many choices were made. *)
Record state := St {
  count : obj -> nat;
  blocks : nat -> nat;
  env : string -> ptr;
  next : nat;
  gil : bool;
  err : bool;
  tick : nat }.

(** What the function hands back: NULL, or an object and, for a tuple made by
    Py_BuildValue, the objects the tuple holds. *)
Inductive result := NULL | Obj (o : obj) (items : list obj).

(** Undefined behaviour or a fatal error of the interpreter, or a return. *)
Inductive outcome := Crash | Done (r : result) (s : state).

Inductive prog :=
| Given (i : nat) (p q : prog)        (* was parameter i passed? *)
| IfNone (i : nat) (p q : prog)       (* object == Py_None *)
| IfText (i : nat) (p q : prog)       (* PyUnicode_Check(object) *)
| Leftover (p q : prog)               (* q: a keyword that is no parameter *)
| Choose (p q : prog)                 (* a test on numbers, shapes or types *)
| IfNull (v : string) (p q : prog)    (* v == NULL *)
| Borrow (v : string) (i : nat) (p : prog)    (* v = object *)
| FromAny (v : string) (i : nat) (p : prog)   (* v = PyArray_FROM_OTF(object, ...) *)
| Create (v : string) (p : prog)      (* v = call returning a new reference or NULL *)
| Malloc (v : string) (p : prog)      (* v = PyMem_Malloc(...) *)
| Copy (v w : string) (p : prog)      (* v = w *)
| SetNull (v : string) (p : prog)     (* v = NULL *)
| Use (v : string) (p : prog)         (* following the pointer v *)
| Incref (v : string) (p : prog)
| Decref (v : string) (p : prog)
| Xdecref (v : string) (p : prog)
| Free (v : string) (p : prog)        (* PyMem_Free *)
| SetErr (p : prog)                   (* PyErr_Format *)
| MayErr (p : prog)                   (* call that may set an exception, result not tested *)
| Save (p : prog)                     (* PyEval_SaveThread, Py_BEGIN_ALLOW_THREADS *)
| Restore (p : prog)                  (* PyEval_RestoreThread, Py_END_ALLOW_THREADS *)
| RetNull                             (* return NULL *)
| RetArr (v : string)                 (* return PyArray_Return(v) *)
| RetFresh                            (* return PyFloat_FromDouble, Py_BuildValue("(d,d,d)") *)
| RetSingle (o : obj)                 (* Py_INCREF and return of Py_None, Py_True, Py_False *)
| RetPair (v w : string).             (* return Py_BuildValue("(N,N)", v, w) *)

Definition put {A} (f : string -> A) (v : string) (x : A) : string -> A :=
  fun u => if String.eqb u v then x else f u.
Definition at_ (f : nat -> nat) (o n : nat) : nat -> nat := fun x => if (x =? o)%nat then n else f x.

Definition set_var (s : state) (v : string) (p : ptr) : state :=
  St (count s) (blocks s) (put (env s) v p) (next s) (gil s) (err s) (tick s).
Definition set_count (s : state) (o n : nat) : state :=
  St (at_ (count s) o n) (blocks s) (env s) (next s) (gil s) (err s) (tick s).
Definition set_blocks (s : state) (b n : nat) : state :=
  St (count s) (at_ (blocks s) b n) (env s) (next s) (gil s) (err s) (tick s).
Definition set_err (s : state) : state :=
  St (count s) (blocks s) (env s) (next s) (gil s) true (tick s).
Definition set_gil (s : state) (g : bool) : state :=
  St (count s) (blocks s) (env s) (next s) g (err s) (tick s).
Definition ticked (s : state) : state :=
  St (count s) (blocks s) (env s) (next s) (gil s) (err s) (S (tick s)).
(** A new object with one reference, a new block. *)
Definition fresh (s : state) : state :=
  St (at_ (count s) (next s) 1) (blocks s) (env s) (S (next s)) (gil s) (err s) (tick s).
Definition fresh_block (s : state) : state :=
  St (count s) (at_ (blocks s) (next s) 1) (env s) (S (next s)) (gil s) (err s) (tick s).

(** Give up one reference: NULL, a block or a released object is undefined. *)
Definition release (s : state) (p : ptr) : option state :=
  match p with
  | Ref o => match count s o with 0 => None | S n => Some (set_count s o n) end
  | _ => None
  end.

Definition kind_of (a : arg) : kind := match a with Missing => KMissing | Arg k _ => k end.
Definition missing (a : arg) : bool := match kind_of a with KMissing => true | _ => false end.

(** A run with given arguments; [orc] makes the choices. *)
Fixpoint exec (args : list arg) (orc : nat -> nat) (p : prog) (s : state) {struct p} : outcome :=
  let choice := orc (tick s) in
  match p with
  | Given i p q => if missing (nth i args Missing) then exec args orc q s else exec args orc p s
  | IfNone i p q => match kind_of (nth i args Missing) with KNone => exec args orc p s | _ => exec args orc q s end
  | IfText i p q => match kind_of (nth i args Missing) with KText => exec args orc p s | _ => exec args orc q s end
  | Leftover p q =>
      if existsb missing args
      then match choice with 0 => exec args orc q (ticked s) | _ => exec args orc p (ticked s) end
      else exec args orc p s
  | Choose p q => match choice with 0 => exec args orc p (ticked s) | _ => exec args orc q (ticked s) end
  | IfNull v p q => match env s v with Null => exec args orc p s | _ => exec args orc q s end
  | Borrow v i p =>
      match nth i args Missing with
      | Missing => Crash
      | Arg _ o => exec args orc p (set_var s v (Ref o))
      end
  | FromAny v i p =>
      if gil s then
        match nth i args Missing with
        | Missing => Crash
        | Arg _ o =>
            match choice with
            | 0 => exec args orc p (set_var (set_err (ticked s)) v Null)
            | 1 => exec args orc p (set_var (set_count (ticked s) o (S (count s o))) v (Ref o))
            | _ => exec args orc p (set_var (fresh (ticked s)) v (Ref (next s)))
            end
        end
      else Crash
  | Create v p =>
      if gil s then
        match choice with
        | 0 => exec args orc p (set_var (set_err (ticked s)) v Null)
        | _ => exec args orc p (set_var (fresh (ticked s)) v (Ref (next s)))
        end
      else Crash
  | Malloc v p =>
      if gil s then
        match choice with
        | 0 => exec args orc p (set_var (ticked s) v Null)
        | _ => exec args orc p (set_var (fresh_block (ticked s)) v (Buf (next s)))
        end
      else Crash
  | Copy v w p => exec args orc p (set_var s v (env s w))
  | SetNull v p => exec args orc p (set_var s v Null)
  | Use v p =>
      match env s v with
      | Null => Crash
      | Ref o => match count s o with 0 => Crash | _ => exec args orc p s end
      | Buf b => match blocks s b with 0 => Crash | _ => exec args orc p s end
      end
  | Incref v p =>
      if gil s then
        match env s v with
        | Ref o => match count s o with 0 => Crash | S n => exec args orc p (set_count s o (S (S n))) end
        | _ => Crash
        end
      else Crash
  | Decref v p =>
      if gil s then match release s (env s v) with Some s' => exec args orc p s' | None => Crash end else Crash
  | Xdecref v p =>
      if gil s then
        match env s v with
        | Null => exec args orc p s
        | x => match release s x with Some s' => exec args orc p s' | None => Crash end
        end
      else Crash
  | Free v p =>
      if gil s then
        match env s v with
        | Null => exec args orc p s
        | Buf b => match blocks s b with 0 => Crash | S n => exec args orc p (set_blocks s b n) end
        | Ref _ => Crash
        end
      else Crash
  | SetErr p => if gil s then exec args orc p (set_err s) else Crash
  | MayErr p =>
      if gil s then match choice with 0 => exec args orc p (set_err (ticked s)) | _ => exec args orc p (ticked s) end
      else Crash
  | Save p => if gil s then exec args orc p (set_gil s false) else Crash
  (* PyEval_RestoreThread(NULL) is a fatal error *)
  | Restore p => if gil s then Crash else exec args orc p (set_gil s true)
  | RetNull => Done NULL s
  (* PyArray_Return gives NULL, releasing the array, when an exception is set,
     and turns an array without dimensions into a scalar *)
  | RetArr v =>
      if gil s then
        match env s v with
        | Ref o =>
            match count s o with
            | 0 => Crash
            | S n =>
                if err s then Done NULL (set_count s o n)
                else match choice with
                     | 0 => Done NULL (set_err (set_count (ticked s) o n))
                     | 1 => Done (Obj (next s) []) (fresh (set_count (ticked s) o n))
                     | _ => Done (Obj o []) (ticked s)
                     end
            end
        | _ => Crash
        end
      else Crash
  | RetFresh =>
      if gil s then
        match choice with
        | 0 => Done NULL (set_err (ticked s))
        | _ => Done (Obj (next s) []) (fresh (ticked s))
        end
      else Crash
  | RetSingle o => if gil s then Done (Obj o []) (set_count s o (S (count s o))) else Crash
  (* format N takes over the references, also when no tuple can be made *)
  | RetPair v w =>
      if gil s then
        match env s v, env s w with
        | Ref a, Ref b =>
            match choice with
            | 0 => match release (set_err (ticked s)) (Ref a) with
                   | Some s1 => match release s1 (Ref b) with Some s2 => Done NULL s2 | None => Crash end
                   | None => Crash
                   end
            | _ => match count s a, count s b with
                   | S _, S _ => Done (Obj (next s) [a; b]) (fresh (ticked s))
                   | _, _ => Crash
                   end
            end
        | _, _ => Crash
        end
      else Crash
  end.

Notation "a ;; p" := (a p) (at level 62, right associativity, only parsing).

(** ** Argument parsing *)

(** PyConverter_DoubleMatrix44 (825-845), DoubleMatrix44Copy (847-868),
    DoubleVector3 (870-890), DoubleVector4 (892-912): an array of the right shape. *)
Definition conv_checked (v : string) (i : nat) (k fail : prog) : prog :=
  FromAny v i ;;
  IfNull v (SetErr ;; fail)
    (Choose k (SetErr ;; Decref v ;; SetNull v ;; fail)).

(** PyConverter_DoubleVector3OrNone, 937-961. *)
Definition conv_checked_or_none (v : string) (i : nat) (k fail : prog) : prog :=
  IfNone i (SetNull v ;; k) (conv_checked v i k fail).

(** PyConverter_AnyDoubleArray, 788-806. *)
Definition conv_any (v : string) (i : nat) (k fail : prog) : prog :=
  Choose
    (Borrow v i ;; Incref v ;; k)
    (FromAny v i ;; IfNull v (SetErr ;; fail) k).

(** PyOutputConverter_AnyDoubleArrayOrNone, 963-982. *)
Definition conv_output (v : string) (i : nat) (k fail : prog) : prog :=
  IfNone i (SetNull v ;; k)
    (Choose (Borrow v i ;; Incref v ;; k) (SetErr ;; SetNull v ;; fail)).

(** Formats "d", "i", "n" and PyArray_AxisConverter: a number or an exception. *)
Definition number (i : nat) (k fail : prog) : prog := Choose k (SetErr ;; fail).

(** Format "O": the variable points to the caller's object, no reference is taken. *)
Definition object (v : string) (i : nat) (k fail : prog) : prog := Borrow v i ;; k.

(** PyArg_ParseTupleAndKeywords: parameters in order, a missing required one ends it,
    a missing optional one leaves its variable alone; too many arguments are found
    at once, a keyword that is no parameter at the end (only possible when some
    parameter was not passed, as there are no more arguments than parameters). *)
Fixpoint parse_from (i : nat) (items : list (bool * (nat -> prog -> prog -> prog))) (k fail : prog) : prog :=
  match items with
  | [] => Leftover k (SetErr ;; fail)
  | (required, conv) :: r =>
      let rest := parse_from (S i) r k fail in
      Given i (conv i rest fail) (if required then SetErr ;; fail else rest)
  end.
Definition parse (items : list (bool * (nat -> prog -> prog -> prog))) (fail k : prog) : prog :=
  Choose (parse_from 0 items k fail) (SetErr ;; fail).
Definition req (c : nat -> prog -> prog -> prog) := (true, c).
Definition opt (c : nat -> prog -> prog -> prog) := (false, c).

(** ** Shared steps *)

(** result = PyArray_SimpleNew(...); if (result == NULL) { PyErr_Format; goto _fail; }
    PyArray_Zeros takes over the reference to its descriptor. *)
Definition new_array (v : string) (fail k : prog) : prog := Create v ;; IfNull v (SetErr ;; fail) k.
(** if (...) { PyErr_Format; goto _fail; } *)
Definition guard (fail k : prog) : prog := Choose k (SetErr ;; fail).
Fixpoint xdecrefs (vs : list string) (k : prog) : prog := match vs with [] => k | v :: r => Xdecref v ;; xdecrefs r k end.
Fixpoint decrefs (vs : list string) (k : prog) : prog := match vs with [] => k | v :: r => Decref v ;; decrefs r k end.
Fixpoint uses (vs : list string) (k : prog) : prog := match vs with [] => k | v :: r => Use v ;; uses r k end.

(** The objects True and False, None of the interpreter. *)
Definition py_none : obj := 0.
Definition py_true : obj := 1.
Definition py_false : obj := 2.

(** axis2tuple, 2110-2230.  Four reads with PySequence_GetInteger, 987-1010; once
    one has given -1 the final test fails. *)
Fixpoint axis_items (n : nat) (bad : bool) (k fail : prog) : prog :=
  match n with
  | 0 => if bad then SetErr ;; fail else guard fail k
  | S m =>
      Create "item" ;;
      Choose
        (IfNull "item" (SetErr ;; axis_items m true k fail)
           (Choose
              (Xdecref "item" ;; axis_items m bad k fail)
              (SetErr ;; Xdecref "item" ;; axis_items m true k fail)))
        (SetErr ;; Xdecref "item" ;; axis_items m true k fail)
  end.
Definition axis_sequence (k fail : prog) : prog := Choose (axis_items 4 false k fail) (SetErr ;; fail).
(** Line 2128 takes a new reference to the encoded name (PyUnicode_AsASCIIString)
    and keeps no pointer to it but the one into its characters.  A string of
    another length is no sequence of four either. *)
Definition axis2tuple (i : nat) (k fail : prog) : prog :=
  IfNull "axes" k
    (IfText i
       (Choose (Create "bytes" ;; Use "bytes" ;; guard fail k) (SetErr ;; fail))
       (axis_sequence k fail)).

(** ** The functions *)

(** 1018-1065 *)
Definition is_same_transform : prog :=
  let fail := xdecrefs ["matrix0"; "matrix1"] RetNull in
  parse [req (conv_checked "matrix0"); req (conv_checked "matrix1")] fail ;;
  uses ["matrix0"; "matrix1"] ;;
  decrefs ["matrix0"; "matrix1"] ;;
  Choose (RetSingle py_true) (RetSingle py_false).

(** 1072-1097; METH_NOARGS *)
Definition identity_matrix : prog :=
  let fail := xdecrefs ["result"] RetNull in
  new_array "result" fail ;; Use "result" ;; RetArr "result".

(** 1105-1142 *)
Definition translation_matrix : prog :=
  let fail := xdecrefs ["direction"; "result"] RetNull in
  parse [req (conv_checked "direction")] fail ;;
  new_array "result" fail ;;
  uses ["result"; "direction"] ;;
  decrefs ["direction"] ;; RetArr "result".

(** 1150-1209 *)
Definition reflection_matrix : prog :=
  let fail := xdecrefs ["point"; "normal"; "result"] RetNull in
  parse [req (conv_checked "point"); req (conv_checked "normal")] fail ;;
  new_array "result" fail ;;
  uses ["result"; "point"; "normal"] ;;
  guard fail ;;
  decrefs ["point"; "normal"] ;; RetArr "result".

(** 1217-1301 *)
Definition rotation_matrix : prog :=
  let fail := xdecrefs ["point"; "direction"; "result"] RetNull in
  parse [req number; req (conv_checked "direction"); opt (conv_checked_or_none "point")] fail ;;
  new_array "result" fail ;;
  uses ["result"; "direction"] ;;
  guard fail ;;
  let rest := xdecrefs ["point"] ;; decrefs ["direction"] ;; RetArr "result" in
  IfNull "point" rest (Use "point" ;; rest).

(** 1309-1465 *)
Definition projection_matrix : prog :=
  let fail := xdecrefs ["point"; "normal"; "direction"; "perspective"; "result"] RetNull in
  parse [req (conv_checked "point"); req (conv_checked "normal"); opt (conv_checked_or_none "direction");
         opt (conv_checked_or_none "perspective"); opt (object "pseudobj")] fail ;;
  let body :=
    new_array "result" fail ;;
    uses ["result"; "point"; "normal"] ;;
    guard fail ;;
    let rest := decrefs ["point"; "normal"] ;; xdecrefs ["direction"; "perspective"] ;; RetArr "result" in
    IfNull "perspective"
      (IfNull "direction" rest (Use "direction" ;; guard fail ;; rest))
      (Use "perspective" ;; rest) in
  IfNull "pseudobj" body (Use "pseudobj" ;; MayErr ;; body).

(** 1473-1538 *)
Definition clip_matrix : prog :=
  let fail := xdecrefs ["result"] RetNull in
  parse [req number; req number; req number; req number; req number; req number; opt (object "boolobj")] fail ;;
  let body :=
    guard fail ;;
    new_array "result" fail ;;
    Use "result" ;;
    Choose (guard fail ;; RetArr "result") (RetArr "result") in
  IfNull "boolobj" body (Use "boolobj" ;; MayErr ;; body).

(** 1546-1618 *)
Definition scale_matrix : prog :=
  let fail := xdecrefs ["origin"; "direction"; "result"] RetNull in
  parse [req number; opt (conv_checked_or_none "origin"); opt (conv_checked_or_none "direction")] fail ;;
  new_array "result" fail ;;
  Use "result" ;;
  let rest := xdecrefs ["origin"; "direction"] ;; RetArr "result" in
  IfNull "direction"
    (IfNull "origin" rest (Use "origin" ;; rest))
    (Use "direction" ;; IfNull "origin" rest (Use "origin" ;; rest)).

(** 1626-1719 *)
Definition shear_matrix : prog :=
  let fail := xdecrefs ["direction"; "point"; "normal"; "result"] RetNull in
  parse [req number; req (conv_checked "direction"); req (conv_checked "point"); req (conv_checked "normal")] fail ;;
  new_array "result" fail ;;
  uses ["result"; "direction"; "point"; "normal"] ;;
  guard fail ;; guard fail ;; guard fail ;;
  decrefs ["direction"; "point"; "normal"] ;; RetArr "result".

(** 1727-2039 *)
Definition superimposition_matrix : prog :=
  let fail := Free "buffer" ;; xdecrefs ["v0"; "v1"; "result"] RetNull in
  let fail_unlocked := Restore ;; SetErr ;; fail in
  parse [req (conv_any "v0"); req (conv_any "v1"); opt (object "scalingobj"); opt (object "usesvdobj")] fail ;;
  let body :=
    uses ["v0"; "v1"] ;;
    guard fail ;; guard fail ;;
    new_array "result" fail ;;
    Malloc "buffer" ;;
    IfNull "buffer" (SetErr ;; fail)
      (uses ["result"; "buffer"; "v0"; "v1"] ;;
       Save ;;
       Use "buffer" ;;
       Choose
         (Choose
            (Choose
               (Restore ;; uses ["v0"; "v1"; "result"] ;;
                Free "buffer" ;; decrefs ["v0"; "v1"] ;; RetArr "result")
               fail_unlocked)
            fail_unlocked)
         fail_unlocked) in
  IfNull "scalingobj" body (Use "scalingobj" ;; MayErr ;; body).

(** 2047-2105 *)
Definition orthogonalization_matrix : prog :=
  let fail := xdecrefs ["lengths"; "angles"; "result"] RetNull in
  parse [req (conv_checked "lengths"); req (conv_checked "angles")] fail ;;
  new_array "result" fail ;;
  uses ["result"; "lengths"; "angles"] ;;
  guard fail ;;
  decrefs ["lengths"; "angles"] ;; RetArr "result".

(** if (axes != NULL) Py_INCREF(axes); *)
Definition hold_axes (k : prog) : prog := IfNull "axes" k (Incref "axes" ;; k).

(** 2238-2333 *)
Definition euler_matrix : prog :=
  let fail := xdecrefs ["axes"; "result"] RetNull in
  parse [req number; req number; req number; opt (object "axes")] fail ;;
  hold_axes ;;
  new_array "result" fail ;;
  axis2tuple 3 (xdecrefs ["axes"] ;; Use "result" ;; RetArr "result") fail.

(** 2341-2420 *)
Definition euler_from_matrix : prog :=
  let fail := xdecrefs ["axes"; "matrix"] RetNull in
  parse [req (conv_checked "matrix"); opt (object "axes")] fail ;;
  hold_axes ;;
  axis2tuple 1 (Use "matrix" ;; xdecrefs ["axes"] ;; decrefs ["matrix"] ;; RetFresh) fail.

(** 2428-2517 *)
Definition quaternion_from_euler : prog :=
  let fail := xdecrefs ["axes"; "result"] RetNull in
  parse [req number; req number; req number; opt (object "axes")] fail ;;
  hold_axes ;;
  new_array "result" fail ;;
  axis2tuple 3 (Use "result" ;; xdecrefs ["axes"] ;; RetArr "result") fail.

(** 2525-2571 *)
Definition quaternion_about_axis : prog :=
  let fail := xdecrefs ["result"; "axis"] RetNull in
  parse [req number; req (conv_checked "axis")] fail ;;
  new_array "result" fail ;;
  uses ["result"; "axis"] ;;
  decrefs ["axis"] ;; RetArr "result".

(** 2579-2699 *)
Definition quaternion_from_matrix : prog :=
  let fail := Free "buffer" ;; xdecrefs ["result"; "matrix"] RetNull in
  let fail_unlocked := Restore ;; SetErr ;; fail in
  parse [req (conv_checked "matrix"); opt (object "boolobj")] fail ;;
  new_array "result" fail ;;
  let rest := Free "buffer" ;; decrefs ["matrix"] ;; RetArr "result" in
  let body :=
    Choose
      (* isprecise: line 2611 restores the thread state although none was saved *)
      (uses ["result"; "matrix"] ;; Choose rest fail_unlocked)
      (uses ["result"; "matrix"] ;;
       Malloc "buffer" ;;
       IfNull "buffer" (SetErr ;; fail)
         (uses ["buffer"; "matrix"] ;;
          Save ;;
          uses ["buffer"; "result"] ;;
          Choose (Choose (Restore ;; rest) fail_unlocked) fail_unlocked)) in
  IfNull "boolobj" body (Use "boolobj" ;; MayErr ;; body).

(** 2707-2740 *)
Definition quaternion_matrix : prog :=
  let fail := xdecrefs ["result"; "quaternion"] RetNull in
  parse [req (conv_checked "quaternion")] fail ;;
  new_array "result" fail ;;
  uses ["quaternion"; "result"] ;;
  guard fail ;;
  decrefs ["quaternion"] ;; RetArr "result".

(** 2747-2787 *)
Definition quaternion_multiply : prog :=
  let fail := xdecrefs ["result"; "quaternion0"; "quaternion1"] RetNull in
  parse [req (conv_checked "quaternion1"); req (conv_checked "quaternion0")] fail ;;
  new_array "result" fail ;;
  uses ["quaternion0"; "quaternion1"; "result"] ;;
  decrefs ["quaternion0"; "quaternion1"] ;; RetArr "result".

(** 2794-2829 *)
Definition quaternion_conjugate : prog :=
  let fail := xdecrefs ["result"; "quaternion"] RetNull in
  parse [req (conv_checked "quaternion")] fail ;;
  new_array "result" fail ;;
  uses ["quaternion"; "result"] ;;
  decrefs ["quaternion"] ;; RetArr "result".

(** 2836-2878 *)
Definition quaternion_inverse : prog :=
  let fail := xdecrefs ["result"; "quaternion"] RetNull in
  parse [req (conv_checked "quaternion")] fail ;;
  new_array "result" fail ;;
  uses ["quaternion"; "result"] ;;
  guard fail ;;
  decrefs ["quaternion"] ;; RetArr "result".

(** 2886-2975; _fail uses Py_DECREF where the others use Py_XDECREF *)
Definition quaternion_slerp : prog :=
  let fail := xdecrefs ["result"] ;; decrefs ["quaternion0"; "quaternion1"] RetNull in
  parse [req (conv_checked "quaternion0"); req (conv_checked "quaternion1"); req number; opt number;
         opt (object "boolobj")] fail ;;
  let body :=
    new_array "result" fail ;;
    uses ["quaternion0"; "quaternion1"; "result"] ;;
    guard fail ;; guard fail ;;
    decrefs ["quaternion0"; "quaternion1"] ;; RetArr "result" in
  IfNull "boolobj" body (Use "boolobj" ;; MayErr ;; body).

(** 2983-3038 *)
Definition random_quaternion : prog :=
  let fail := xdecrefs ["arand"; "result"] RetNull in
  parse [opt (conv_checked_or_none "arand")] fail ;;
  new_array "result" fail ;;
  Use "result" ;;
  let rest := xdecrefs ["arand"] ;; RetArr "result" in
  IfNull "arand" (guard fail ;; rest) (Use "arand" ;; rest).

(** 3046-3132 *)
Definition random_rotation_matrix : prog :=
  let fail := xdecrefs ["arand"; "result"] RetNull in
  parse [opt (conv_checked_or_none "arand")] fail ;;
  new_array "result" fail ;;
  Use "result" ;;
  let rest := xdecrefs ["arand"] ;; RetArr "result" in
  IfNull "arand" (guard fail ;; rest) (Use "arand" ;; rest).

(** 3140-3234 *)
Definition inverse_matrix : prog :=
  let fail := xdecrefs ["matrix"; "result"] RetNull in
  parse [req (object "object")] fail ;;
  FromAny "matrix" 0 ;;
  IfNull "matrix" (SetErr ;; fail)
    (Use "matrix" ;;
     guard fail ;;
     new_array "result" fail ;;
     uses ["matrix"; "result"] ;;
     let rest := guard fail ;; xdecrefs ["matrix"] ;; RetArr "result" in
     Choose rest
       (Malloc "buffer" ;;
        IfNull "buffer" (SetErr ;; fail)
          (uses ["buffer"; "matrix"] ;;
           Save ;; uses ["buffer"; "result"] ;; Restore ;;
           Free "buffer" ;; rest))).

(** One component in 3268-3272: o = PySequence_GetItem(...); if (o != NULL) PyFloat_AsDouble(o); Py_XDECREF(o); *)
Definition component (k : prog) : prog :=
  Create "o" ;;
  let rest := Xdecref "o" ;; k in
  IfNull "o" rest (Use "o" ;; MayErr ;; rest).

(** 3242-3323 *)
Definition arcball_map_to_sphere : prog :=
  let fail := xdecrefs ["result"] RetNull in
  parse [req (object "point"); req (object "center"); req number] fail ;;
  new_array "result" fail ;;
  Use "point" ;;
  guard fail ;; component ;; component ;;
  Use "center" ;;
  guard fail ;; component ;; component ;;
  Use "result" ;; RetArr "result".

(** 3331-3389 *)
Definition arcball_constrain_to_axis : prog :=
  let fail := xdecrefs ["axis"; "point"; "result"] RetNull in
  parse [req (conv_checked "point"); req (conv_checked "axis")] fail ;;
  new_array "result" fail ;;
  uses ["result"; "point"; "axis"] ;;
  decrefs ["axis"; "point"] ;; RetArr "result".

(** Lines 3552-3557 and 3737-3742: Py_XDECREF((oout == NULL) ? out : oout) *)
Definition fail_out : prog :=
  xdecrefs ["oit"; "dit"; "data"] ;;
  IfNull "oout" (Xdecref "out" ;; RetNull) (Xdecref "oout" ;; RetNull).
(** Lines 3543-3549 and 3729-3735 *)
Definition return_out : prog :=
  IfNull "oout" (RetArr "out") (Decref "oout" ;; RetSingle py_none).

(** 3397-3558; the iterators of 3501-3503 are not tested *)
Definition vector_norm : prog :=
  let fail := fail_out in
  parse [req (conv_any "data"); opt number; opt (conv_output "oout")] fail ;;
  let along :=
    uses ["data"; "out"] ;;
    Create "dit" ;; Create "oit" ;;
    uses ["data"; "dit"; "oit"] ;;
    decrefs ["oit"; "dit"; "data"] ;;
    return_out in
  Choose
    (IfNull "oout"
       (Use "data" ;;
        Choose
          (decrefs ["data"] ;; RetFresh)
          (Create "dit" ;;
           IfNull "dit" (SetErr ;; fail)
             (Use "dit" ;; decrefs ["dit"; "data"] ;; RetFresh)))
       (SetErr ;; fail))
    (Use "data" ;;
     guard fail ;;
     IfNull "oout"
       (new_array "out" fail ;; along)
       (Use "oout" ;; guard fail ;; guard fail ;; Copy "out" "oout" ;; along)).

(** if (dit == NULL || oit == NULL) { PyErr_Format; goto _fail; } *)
Definition both_iterators (fail k : prog) : prog :=
  IfNull "dit" (SetErr ;; fail) (IfNull "oit" (SetErr ;; fail) k).

(** 3566-3743 *)
Definition unit_vector : prog :=
  let fail := fail_out in
  parse [req (conv_any "data"); opt number; opt (conv_output "oout")] fail ;;
  let finish := xdecrefs ["oit"; "dit"] ;; decrefs ["data"] ;; return_out in
  let body :=
    Choose
      (uses ["data"; "out"] ;;
       Choose finish
         (Create "dit" ;; Create "oit" ;;
          both_iterators fail ;;
          Use "dit" ;;
          Decref "dit" ;;
          Create "dit" ;;
          IfNull "dit" (SetErr ;; fail)
            (uses ["dit"; "oit"] ;; finish)))
      (Use "data" ;;
       guard fail ;;
       Create "dit" ;; Create "oit" ;;
       both_iterators fail ;;
       uses ["data"; "out"; "dit"; "oit"] ;; finish) in
  IfNull "oout"
    (Use "data" ;; new_array "out" fail ;; body)
    (uses ["data"; "oout"] ;; guard fail ;; Copy "out" "oout" ;; body).

(** 3751-3785 *)
Definition random_vector : prog :=
  let fail := xdecrefs ["result"] RetNull in
  parse [req number] fail ;;
  new_array "result" fail ;;
  Save ;; Use "result" ;; Restore ;;
  guard fail ;; RetArr "result".

(** 3793-3843 *)
Definition tridiagonalize_symmetric_44 : prog :=
  let fail := xdecrefs ["matrix"; "diagonal"; "subdiagonal"] RetNull in
  parse [req (conv_checked "matrix")] fail ;;
  new_array "diagonal" fail ;;
  new_array "subdiagonal" fail ;;
  Save ;; uses ["matrix"; "diagonal"; "subdiagonal"] ;; Restore ;;
  guard fail ;;
  decrefs ["matrix"] ;; RetPair "diagonal" "subdiagonal".

(** 3851-3878 *)
Definition max_eigenvalue_of_tridiag_44 : prog :=
  let fail := xdecrefs ["diagonal"; "subdiagonal"] RetNull in
  parse [req (conv_checked "diagonal"); req (conv_checked "subdiagonal")] fail ;;
  uses ["diagonal"; "subdiagonal"] ;;
  decrefs ["diagonal"; "subdiagonal"] ;; RetFresh.

(** 3886-3941 *)
Definition eigenvector_of_symmetric_44 : prog :=
  let fail := Free "buffer" ;; xdecrefs ["matrix"; "result"] RetNull in
  parse [req (conv_checked "matrix"); req number] fail ;;
  new_array "result" fail ;;
  Malloc "buffer" ;;
  IfNull "buffer" (SetErr ;; fail)
    (Use "matrix" ;;
     Save ;; uses ["matrix"; "result"; "buffer"] ;; Restore ;;
     guard fail ;;
     Free "buffer" ;; decrefs ["matrix"] ;; RetArr "result").

(** The table of functions, 3953-4046, with their numbers of parameters. *)
Definition functions : list (string * (nat * prog)) :=
  [("is_same_transform", (2, is_same_transform)); ("identity_matrix", (0, identity_matrix));
   ("translation_matrix", (1, translation_matrix)); ("reflection_matrix", (2, reflection_matrix));
   ("rotation_matrix", (3, rotation_matrix)); ("scale_matrix", (3, scale_matrix));
   ("projection_matrix", (5, projection_matrix)); ("clip_matrix", (7, clip_matrix));
   ("shear_matrix", (4, shear_matrix)); ("superimposition_matrix", (4, superimposition_matrix));
   ("orthogonalization_matrix", (2, orthogonalization_matrix)); ("euler_matrix", (4, euler_matrix));
   ("euler_from_matrix", (2, euler_from_matrix)); ("quaternion_from_euler", (4, quaternion_from_euler));
   ("quaternion_about_axis", (2, quaternion_about_axis)); ("quaternion_multiply", (2, quaternion_multiply));
   ("quaternion_matrix", (1, quaternion_matrix)); ("quaternion_from_matrix", (2, quaternion_from_matrix));
   ("quaternion_conjugate", (1, quaternion_conjugate)); ("quaternion_inverse", (1, quaternion_inverse));
   ("quaternion_slerp", (5, quaternion_slerp)); ("random_quaternion", (1, random_quaternion));
   ("random_rotation_matrix", (1, random_rotation_matrix));
   ("arcball_map_to_sphere", (3, arcball_map_to_sphere));
   ("arcball_constrain_to_axis", (2, arcball_constrain_to_axis)); ("vector_norm", (3, vector_norm));
   ("unit_vector", (3, unit_vector)); ("random_vector", (1, random_vector));
   ("inverse_matrix", (1, inverse_matrix));
   ("_tridiagonalize_symmetric_44", (1, tridiagonalize_symmetric_44));
   ("_max_eigenvalue_of_tridiag_44", (2, max_eigenvalue_of_tridiag_44));
   ("_eigenvector_of_symmetric_44", (2, eigenvector_of_symmetric_44))].

(** What the interpreter has when a function is entered: counts and blocks. *)
Record heap := Heap { h_count : obj -> nat; h_blocks : nat -> nat; h_next : nat }.

(** A call: the variables are NULL, the lock is held, no exception is set. *)
Definition enter (h : heap) : state :=
  St (h_count h) (h_blocks h) (fun _ => Null) (h_next h) true false 0.
Definition call (f : prog) (args : list arg) (orc : nat -> nat) (h : heap) : outcome :=
  exec args orc f (enter h).

(** The heap after a return. *)
Definition leave (s : state) : heap := Heap (count s) (blocks s) (next s).
