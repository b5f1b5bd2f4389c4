(** Model of what the compiler checks about moves in the code that [describe_api!] writes (opg/src/macros.rs:332-748, as in Expand.v):
    a variable whose value was moved away is not used again.

    Variables that the code declares are all taken not to be [Copy], although some are: what is accepted here is accepted then too.
    Of the variables of the caller it is given whether they are [Copy].  Simplified: borrows end with the expression that they are
    in, and are not checked against each other. *)
From Coq Require Import List NArith Bool.
From Verif Require Import Str Api Expand.
Import ListNotations.

(** what an expression of the caller does with a variable of the caller: uses a reference to it, or its value *)
Inductive use := Borrow (x : str) | Take (x : str).

Record slot := Slot { sl_id : ident; sl_live : bool; sl_copy : bool }.
(** the variables, the innermost first *)
Definition slots := list slot.

Definition on_var (f : slot -> option slot) (x : ident) :=
  fix go (st : slots) : option slots :=
    match st with
    | [] => None
    | s :: st' => if ident_eq_dec x (sl_id s) then option_map (fun s' => s' :: st') (f s) else option_map (cons s) (go st')
    end.
(** a reference to a variable: it must not have been moved *)
Definition borrow : ident -> slots -> option slots := on_var (fun s => if sl_live s then Some s else None).
(** the value of a variable: it is moved away, or copied *)
Definition take_value : ident -> slots -> option slots :=
  on_var (fun s => if sl_live s then Some {| sl_id := sl_id s; sl_live := sl_copy s; sl_copy := sl_copy s |} else None).
(** an assignment: the variable has a value again *)
Definition assign_value : ident -> slots -> option slots :=
  on_var (fun s => Some {| sl_id := sl_id s; sl_live := true; sl_copy := sl_copy s |}).
(** after two branches: moved if moved in one of them *)
Definition join (a b : slots) : slots :=
  map (fun p => {| sl_id := sl_id (fst p); sl_live := sl_live (fst p) && sl_live (snd p); sl_copy := sl_copy (fst p) |}) (combine a b).

Definition obnd {A B} (o : option A) (f : A -> option B) : option B := match o with Some a => f a | None => None end.
Definition use_var (w : use) (st : slots) : option slots :=
  match w with Borrow x => borrow (Id x []) st | Take x => take_value (Id x []) st end.
Fixpoint use_all (l : list use) (st : slots) : option slots :=
  match l with [] => Some st | w :: l' => obnd (use_var w st) (use_all l') end.
Definition leave_slots (before after : slots) : slots := skipn (length after - length before) after.

Section Moves.
  (** what happens inside of an expression of the caller, in order; whether it is only a variable *)
  Variable uses : uexpr -> list use.
  Variable alone : uexpr -> option str.

  (** [e] where a value is needed, and where a place will do ([(e).to_string()]) *)
  Definition value_of (e : uexpr) (st : slots) : option slots :=
    obnd (use_all (uses e) st) (fun st1 => match alone e with Some x => take_value (Id x []) st1 | None => Some st1 end).
  Definition place_of (e : uexpr) (st : slots) : option slots :=
    obnd (use_all (uses e) st) (fun st1 => match alone e with Some x => borrow (Id x []) st1 | None => Some st1 end).

  Definition check_all {A} (check : A -> slots -> option slots) :=
    fix go (l : list A) (st : slots) : option slots := match l with [] => Some st | x :: l' => obnd (check x st) (go l') end.
  Definition check_fields {A} (check : rexpr -> slots -> option slots) :=
    fix go (l : list (A * rexpr)) (st : slots) : option slots := match l with [] => Some st | (_, x) :: l' => obnd (check x st) (go l') end.

  Fixpoint check (x : rexpr) (st : slots) {struct x} : option slots :=
    match x with
    | EUser e => value_of e st
    | EVar i => take_value i st
    | EVal _ | ECallbackObject | EReason _ | EExtract None => Some st
    (* [($e).to_string()] needs a reference; the only variable in this place is that of macros.rs:366, [$l.into()] *)
    | EToString (EUser e) => place_of e st
    | EToString x => check x st
    | ECon _ x | EExtract (Some x) => check x st
    | EOr x y | EPair x y | EConcat x y => obnd (check x st) (check y)
    | EUnwrapOrElse x y => obnd (check x st) (fun st1 => obnd (check y st1) (fun st2 => Some (join st1 st2)))
    | EMention result _ => borrow result st
    (* macros.rs:591: [&$security] *)
    | EMentionScheme result x y =>
        obnd (check x st) (fun st1 => obnd (match y with EVar i => borrow i st1 | _ => check y st1 end) (borrow result))
    | EStruct _ l => check_fields check l st
    (* macros.rs:384: nothing is bound in the patterns *)
    | EMatchKind x b r =>
        obnd (match x with EVar i => borrow i st | _ => check x st end) (fun st1 =>
        obnd (check b st1) (fun st2 => obnd (check r st1) (fun st3 => Some (join st2 st3))))
    | EVec l => check_all check l st
    (* macros.rs:723-724: [full_name.rfind], [&full_name[..]], [name[..1]], [&name[1..]] *)
    | EAfterColon x | EFirst x | ERest x | EToLowercase x => match x with EVar i => borrow i st | _ => check x st end
    | EBlock l x => obnd (check_all check_stmt l st) (fun st1 => obnd (check x st1) (fun st2 => Some (leave_slots st st2)))
    end
  with check_stmt (s : stmt) (st : slots) {struct s} : option slots :=
    match s with
    | SLet i x => obnd (check x st) (fun st1 => Some ({| sl_id := i; sl_live := true; sl_copy := false |} :: st1))
    | SAssign i x => obnd (check x st) (assign_value i)
    | SSet i _ x | SPush i _ x | SCall i _ x => obnd (check x st) (borrow i)
    (* the only variable that is a key is that of macros.rs:739, [$name.clone()] *)
    | SInsert i _ k x => obnd (match k with EVar n => borrow n st | _ => check k st end) (fun st1 => obnd (check x st1) (borrow i))
    | SBlock l => obnd (check_all check_stmt l st) (fun st1 => Some (leave_slots st st1))
    (* rejected before *)
    | SNoRule => Some st
    end.

  (** The code of the invocation passes, where the caller has the variables [vars]: their names, and whether they are [Copy]. *)
  Definition passes (seg : list tree -> option segment) (vars : list (str * bool)) (l : xapi) : Prop :=
    check (expand_api seg l) (map (fun v => {| sl_id := Id (fst v) []; sl_live := true; sl_copy := snd v |}) vars) <> None.
End Moves.
