(** Specification for the program builder: structured programs, how a client of the builder writes them down, and what it
    means that the control flow of a function is that of a structured program. *)
From Verif Require Export Build DataSpec.

(** ** Structured programs *)

(** ways to leave a function, or to end the program *)
Inductive Ending :=
| EnExit
| EnAbort
| EnUnreachable
| EnReturn
| EnResume
| EnCall (callee : ValueExpr) (args : list ArgumentExpr) (ret : PlaceExpr).

(** kinds of code that runs during unwinding *)
Inductive HandlerKind := HkCleanup | HkTerminate | HkCatch.

Inductive Cmd :=
(** do nothing *)
| CmSkip
(** one after the other *)
| CmSeq (c d : Cmd)
(** declare a variable *)
| CmLocal (ty : Ty)
(** a statement *)
| CmStmt (s : Statement)
(** an intrinsic after which execution goes on *)
| CmIntr (op : IntrinsicOp) (args : list ValueExpr) (ret : PlaceExpr)
(** call a function that does not unwind *)
| CmCall (callee : ValueExpr) (args : list ArgumentExpr) (ret : PlaceExpr)
(** call a function; if it unwinds go on with [handler] *)
| CmTry (callee : ValueExpr) (conv : CallingConvention) (args : list ArgumentExpr) (ret : PlaceExpr) (k : HandlerKind) (handler : Cmd)
(** start unwinding, with [handler] *)
| CmThrow (payload : ValueExpr) (k : HandlerKind) (handler : Cmd)
(** leave *)
| CmEnd (e : Ending)
| CmSwitch (v : ValueExpr) (cases : list (Z * Cmd)) (fallback : Cmd)
| CmIf (cond : ValueExpr) (then_ else_ : Cmd)
| CmWhile (cond : ValueExpr) (body : Cmd).

(** what happens next *)
Inductive Act :=
| AStmt (s : Statement)
| AIntr (op : IntrinsicOp) (args : list ValueExpr) (ret : PlaceExpr)
(** a call, which may unwind or not *)
| ACall (callee : ValueExpr) (conv : CallingConvention) (args : list ArgumentExpr) (ret : PlaceExpr) (may_unwind : bool)
(** the same call unwinds *)
| AUnwind (callee : ValueExpr) (conv : CallingConvention) (args : list ArgumentExpr) (ret : PlaceExpr)
| AThrow (payload : ValueExpr)
(** the value of [v] is [i] *)
| ABranch (v : ValueExpr) (i : Z)
(** the value of [c] is [b] *)
| ATest (c : ValueExpr) (b : bool)
| AEnd (e : Ending).

(** the branch of a switch: that of the first case for [i], or else the fallback *)
Fixpoint pick (cases : list (Z * Cmd)) (fallback : Cmd) (i : Z) : Cmd :=
  match cases with
  | [] => fallback
  | (j, c) :: r => if bool_decide (j = i) then c else pick r fallback i
  end.

(** [does k a k']: if the commands [k] are to be executed one after the other, [a] happens and then [k'] is to be
    executed *)
Inductive does : list Cmd -> Act -> list Cmd -> Prop :=
| do_skip k a k' : does k a k' -> does (CmSkip :: k) a k'
| do_seq c d k a k' : does (c :: d :: k) a k' -> does (CmSeq c d :: k) a k'
| do_local ty k a k' : does k a k' -> does (CmLocal ty :: k) a k'
| do_stmt s k : does (CmStmt s :: k) (AStmt s) k
| do_intr op args ret k : does (CmIntr op args ret :: k) (AIntr op args ret) k
| do_call f args ret k : does (CmCall f args ret :: k) (ACall f CcRust args ret false) k
| do_try f conv args ret hk h k : does (CmTry f conv args ret hk h :: k) (ACall f conv args ret true) k
| do_unwind f conv args ret hk h k : does (CmTry f conv args ret hk h :: k) (AUnwind f conv args ret) [h]
| do_throw v hk h k : does (CmThrow v hk h :: k) (AThrow v) [h]
| do_end e k : does (CmEnd e :: k) (AEnd e) []
| do_switch v cases fb k i : does (CmSwitch v cases fb :: k) (ABranch v i) (pick cases fb i :: k)
| do_if c t e k (b : bool) : does (CmIf c t e :: k) (ATest c b) ((if b then t else e) :: k)
| do_loop c body k : does (CmWhile c body :: k) (ATest c true) (body :: CmWhile c body :: k)
| do_leave c body k : does (CmWhile c body :: k) (ATest c false) k.

(** [gets_to k k']: executing [k] one may get to where [k'] is to be executed *)
Inductive gets_to : list Cmd -> list Cmd -> Prop :=
| gt_here k : gets_to k k
| gt_step k a k1 k2 : does k a k1 -> gets_to k1 k2 -> gets_to k k2.

(** ** Writing them down with the builder *)

Definition hk_kind (k : HandlerKind) : BbKind := match k with HkCleanup => BkCleanup | HkTerminate => BkTerminate | HkCatch => BkCatch end.
Definition fb_handler (k : HandlerKind) : Builder -> FnBuilder -> Outcome (BbName * FnBuilder) :=
  match k with HkCleanup => cleanup_block | HkTerminate => terminating_block | HkCatch => catch_block end.
Definition emit_end (e : Ending) : Builder :=
  match e with
  | EnExit => fb_exit
  | EnAbort => fb_abort
  | EnUnreachable => fb_unreachable
  | EnReturn => fb_return
  | EnResume => fb_resume_unwind
  | EnCall f args ret => call_noret ret f args
  end.

(** the calls of the methods of the builder for a structured program *)
Fixpoint emit (c : Cmd) (b : FnBuilder) : Outcome FnBuilder :=
  match c with
  | CmSkip => Ret b
  | CmSeq c d => let! b := emit c b in emit d b
  | CmLocal ty => let! '(_, b) := declare_local b ty in Ret b
  | CmStmt s => push_statement s b
  | CmIntr op args ret => fb_intrinsic op args ret b
  | CmCall f args ret => call_nounwind ret f args b
  | CmTry f conv args ret k h => let! '(n, b) := fb_handler k (emit h) b in call_with_conv ret f args conv n b
  | CmThrow v k h => let! '(n, b) := fb_handler k (emit h) b in fb_start_unwind v n b
  | CmEnd e => emit_end e b
  | CmSwitch v cases fb => switch_int v (List.map (fun ic => (fst ic, emit (snd ic))) cases) (emit fb) b
  | CmIf c t e => fb_if c (emit t) (emit e) b
  | CmWhile c body => fb_while c (emit body) b
  end.

(** parameters, return variable and calling convention of a function *)
Record Header := mkHeader { hd_args : list Ty; hd_ret : option Ty; hd_conv : CallingConvention }.
Definition emit_header (h : Header) (b : FnBuilder) : Outcome FnBuilder :=
  let! b := fold_m (fun b ty => let! '(_, b) := declare_arg b ty in Ret b) (hd_args h) b in
  let! b := match hd_ret h with Some ty => let! '(_, b) := declare_ret b ty in Ret b | None => Ret b end in
  Ret (set_conv b (hd_conv h)).

(** the function built for a header and a body *)
Definition build_function (name : FnName) (h : Header) (c : Cmd) : Outcome Function :=
  let! b := fb_new name in
  let! b := emit_header h b in
  let! b := emit c b in
  finish_function b.

(** ** Which structured programs can be written down *)

(** execution may get to the end of the command *)
Fixpoint falls (c : Cmd) : bool :=
  match c with
  | CmSkip | CmLocal _ | CmStmt _ | CmIntr _ _ _ | CmCall _ _ _ | CmTry _ _ _ _ _ _ | CmWhile _ _ => true
  | CmSeq c d => falls c && falls d
  | CmThrow _ _ _ | CmEnd _ => false
  | CmSwitch _ cases fb => existsb (fun ic => falls (snd ic)) cases || falls fb
  | CmIf _ t e => falls t || falls e
  end.

(** the command does not do anything *)
Fixpoint passive (c : Cmd) : bool :=
  match c with
  | CmSkip | CmLocal _ => true
  | CmSeq c d => passive c && passive d
  | _ => false
  end.

(** nothing comes after code that cannot get to its end, handlers cannot get to their end, and the cases of switches
    differ *)
Fixpoint proper_cmd (c : Cmd) : bool :=
  match c with
  | CmSkip | CmLocal _ | CmStmt _ | CmIntr _ _ _ | CmCall _ _ _ | CmEnd _ => true
  | CmSeq c d => proper_cmd c && proper_cmd d && (falls c || passive d)
  | CmTry _ _ _ _ _ h | CmThrow _ _ h => proper_cmd h && negb (falls h)
  | CmSwitch _ cases fb => forallb (fun ic => proper_cmd (snd ic)) cases && bool_decide (NoDup (List.map fst cases)) && proper_cmd fb
  | CmIf _ t e => proper_cmd t && proper_cmd e
  | CmWhile _ body => proper_cmd body
  end.

(** ** Functions that run structured programs *)

(** the terminator of an ending *)
Definition ending_term (e : Ending) : Terminator :=
  match e with
  | EnExit => b_exit
  | EnAbort => b_abort
  | EnUnreachable => TmUnreachable
  | EnReturn => TmReturn
  | EnResume => TmResumeUnwind
  | EnCall f args ret => TmCall f CcRust args ret None None
  end.

Section Follows.
  Variable func : Function.

  (** a block and the number of a statement in it; the terminator comes after the last statement *)
  Definition stmt_at (b : BbName) (i : nat) (s : Statement) : Prop :=
    exists blk, map_get (fn_blocks func) b = Some blk /\ bb_statements blk !! i = Some s.
  Definition term_at (b : BbName) (i : nat) (tm : Terminator) : Prop :=
    exists blk, map_get (fn_blocks func) b = Some blk /\ i = length (bb_statements blk) /\ bb_terminator blk = tm.

  (** [moves_as R b i k]: what the function does at this point, possibly after some gotos, is the next thing that happens
      when the commands [k] are executed, and after that the function is at a point which [R] relates to the remaining
      commands *)
  Inductive moves_as (R : BbName -> nat -> list Cmd -> Prop) : BbName -> nat -> list Cmd -> Prop :=
  | mo_goto b i b' k : term_at b i (TmGoto b') -> moves_as R b' 0 k -> moves_as R b i k
  | mo_stmt b i s k k' : stmt_at b i s -> does k (AStmt s) k' -> R b (S i) k' -> moves_as R b i k
  | mo_intr b i op args ret nb k k' : term_at b i (TmIntrinsic op args ret (Some nb)) ->
      does k (AIntr op args ret) k' -> R nb 0%nat k' -> moves_as R b i k
  | mo_call b i f conv args ret nb k k' : term_at b i (TmCall f conv args ret (Some nb) None) ->
      does k (ACall f conv args ret false) k' -> R nb 0%nat k' -> moves_as R b i k
  | mo_try b i f conv args ret nb ub k k' kh : term_at b i (TmCall f conv args ret (Some nb) (Some ub)) ->
      does k (ACall f conv args ret true) k' -> R nb 0%nat k' ->
      does k (AUnwind f conv args ret) kh -> R ub 0%nat kh -> moves_as R b i k
  | mo_throw b i v ub k kh : term_at b i (TmStartUnwind v ub) -> does k (AThrow v) kh -> R ub 0%nat kh -> moves_as R b i k
  | mo_switch b i v cases fb k : term_at b i (TmSwitch v cases fb) ->
      (forall z b', selects cases fb z b' -> exists k', does k (ABranch v z) k' /\ R b' 0%nat k') -> moves_as R b i k
  | mo_test b i c bt be k kt ke : term_at b i (TmSwitch (b_bool_to_u8 c) [(1, bt)] be) ->
      does k (ATest c true) kt -> R bt 0%nat kt -> does k (ATest c false) ke -> R be 0%nat ke -> moves_as R b i k
  | mo_end b i e k : term_at b i (ending_term e) -> does k (AEnd e) [] -> moves_as R b i k.

  (** [follows b i k]: from statement [i] of block [b] on the function executes the commands [k] *)
  Definition follows (b : BbName) (i : nat) (k : list Cmd) : Prop :=
    exists R : BbName -> nat -> list Cmd -> Prop, (forall b i k, R b i k -> moves_as R b i k) /\ R b i k.
End Follows.

(** ** The variables of a structured program *)

(** the types of the variables it declares, in the order in which they are written down; a handler is written down before
    the call it belongs to *)
Fixpoint declared (c : Cmd) : list Ty :=
  match c with
  | CmLocal ty => [ty]
  | CmSkip | CmStmt _ | CmIntr _ _ _ | CmCall _ _ _ | CmEnd _ => []
  | CmSeq c d => declared c ++ declared d
  | CmTry _ _ _ _ _ h | CmThrow _ _ h => declared h
  | CmSwitch _ cases fb => concat (List.map (fun ic => declared (snd ic)) cases) ++ declared fb
  | CmIf _ t e => declared t ++ declared e
  | CmWhile _ body => declared body
  end.

(** all variables of a function with a header and a body: parameters, the return variable, the declared ones, and the
    return variable if the header has none *)
Definition variables (h : Header) (c : Cmd) : list Ty :=
  hd_args h ++ match hd_ret h with Some ty => [ty] | None => [] end ++ declared c ++
  match hd_ret h with Some _ => [] | None => [unit_ty] end.
