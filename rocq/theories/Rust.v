(** The fragment of Rust in which the macros write the generated [test] and [exec] functions: syntax,
    the checks of the compiler that depend on the pattern, and evaluation.
    Covers the [quote!] templates of [ere-core/src/engines/one_pass_u8.rs:295-589] (641-1130 with RustFn.v),
    [ere-core/src/engines/fixed_offset.rs:74-101],
    [ere-core/src/engines/dfa_u8.rs:33-322], [ere-core/src/engines/flat_lockstep_nfa_u8.rs:103-665] and
    [ere-core/src/engines/flat_lockstep_nfa.rs:101-652].
    Simplifications: [usize] is [nat] with [usize::MAX] as a separate value, and adding to the latter is an overflow; references and mutability are
    not checked; [return match x { A => e }] is written as a match whose arms return; [clone] is silent;
    [list[n - 1]] has its index computed; [let symbol = s; symbol.check(c)] is one expression;
    slices and iterators of bytes are lists, both of type [TVec TByte]; the result of the inner [test] is passed
    to [exec] of [fixed_offset] as an argument;
    the struct [Thread] (flat_lockstep_nfa_u8.rs:17-21) is a pair of [state] and [captures]. *)
From Verif Require Export U8Nfa EpsProp Flat NfaStatic.
Open Scope nat_scope.
Open Scope list_scope.

(** The local names used by the templates *)
Inductive var :=
| Xstate | Xi | Xc | Xcaptures | Xcapture_strs | Xstart | Xend | Xold_tags | Xnew_tags
| Xlist | Xnew_list | Xis_start | Xis_end | Xidx | Xlen | Xoccupied | Xthreads | Xnew_threads
| Xthread | Xnew_thread | Xbounds | Xbytes | Xbyte_idx | Xrun_part | Xrest | Xresult | Xmatched.
Definition var_eqb (x y : var) : bool :=
  match x, y with
  | Xstate, Xstate | Xi, Xi | Xc, Xc | Xcaptures, Xcaptures | Xcapture_strs, Xcapture_strs
  | Xstart, Xstart | Xend, Xend | Xold_tags, Xold_tags | Xnew_tags, Xnew_tags | Xlist, Xlist
  | Xnew_list, Xnew_list | Xis_start, Xis_start | Xis_end, Xis_end | Xidx, Xidx | Xlen, Xlen
  | Xoccupied, Xoccupied | Xthreads, Xthreads | Xnew_threads, Xnew_threads | Xthread, Xthread
  | Xnew_thread, Xnew_thread | Xbounds, Xbounds | Xbytes, Xbytes | Xbyte_idx, Xbyte_idx
  | Xrun_part, Xrun_part | Xrest, Xrest | Xresult, Xresult | Xmatched, Xmatched => true
  | _, _ => false
  end.
(** Variants of the local enum [VMStates]: [StateStart] and [State{n}] (dfa_u8.rs:8-30,
    one_pass_u8.rs:278-293) *)
Inductive label := LStart | LNum (n : nat).
Definition label_eqb (a b : label) : bool :=
  match a, b with LStart, LStart => true | LNum m, LNum n => m =? n | _, _ => false end.

(** ** Syntax *)
Inductive rexp :=
| EVar (x : var)
| EBool (b : bool)
| ENum (n : nat)
| EMax                                  (* [usize::MAX] *)
| EByte (c : N)
| ELen                                  (* [text.len()] *)
| ECon (l : label) (o : option rexp)    (* [VMStates::State3], [VMStates::State3(e)] *)
| EIdx (a k : rexp)                     (* [a[k]] *)
| EField (second : bool) (a : rexp)     (* [a.0], [a.1]; [a.state], [a.captures] *)
| EArr (l : list rexp)                  (* [[a, b, c]] *)
| ERep (a : rexp) (n : nat)             (* [[a; n]] *)
| EVec                                  (* [Vec::new()] *)
| EPair (a b : rexp)
| ESome (a : rexp)
| ENothing                              (* [Option::None] *)
| EEq (a b : rexp)                      (* on numbers *)
| EAnd (a b : rexp)
| ENot (a : rexp)
| ELe (a b : rexp)                      (* on bytes *)
| ESucc (a : rexp)                      (* [a + 1] *)
| EWidth (a b : rexp)                   (* [a + b.len_utf8()] *)
| ECheck (s : atom) (a : rexp)          (* [s.check(a)] for an [AtomStatic] written out *)
| EGet (a b : rexp)                     (* [text.get(a..b)] *)
| EIsSome (a : rexp)
| EAllNot (a : rexp)                    (* [a.iter().all(|b| !b)] *)
| EIsEmpty (a : rexp)
| EPlus (a b : rexp)                    (* [a + b] on numbers *)
| EBoth (a b : rexp)                    (* [a & b] on booleans *)
| EBytes                                (* [text.as_bytes().iter()] *)
| ESlice (a b : rexp)                   (* [&text[a..b]] *)
| EExpect (a : rexp)                    (* [a.expect(..)] *)
| EFind (a : rexp) (l : label).         (* [a.into_iter().find(|t| t.state == VMStates::l)] *)

(** What a [for] loop runs over, with the variables it binds *)
Inductive iter :=
| IBytes                                (* [for c in text.bytes()] *)
| IEnum                                 (* [for (i, c) in text.bytes().enumerate()] *)
| IChars                                (* [for (i, c) in text.char_indices()] *)
| IEach (x : var) (a : rexp)            (* [for x in a] *)
| IPairs (a : rexp).                    (* [for (i, (start, end)) in a.into_iter().enumerate()] *)
Inductive access := AIdx (k : rexp) | AField (second : bool).

Inductive ty :=
| TBool | TNum | TByte | TChar | TStr | TEnum
| TPair (a b : ty) | TArr (a : ty) (n : nat) | TVec (a : ty) | TOpt (a : ty).

(** A pattern [VMStates::l], [VMStates::l(x)], possibly paired with a range of bytes *)
Record pat := mkPat { p_label : label; p_bind : option var; p_range : option range }.
Inductive stmt :=
| SLet (x : var) (t : ty) (a : rexp)    (* [let mut x = a], with the type the compiler infers *)
| STry (x : var) (t : ty) (a : rexp)    (* [let x = a?] *)
| SSet (x : var) (p : list access) (a : rexp)
| SRet (a : rexp)
| SAssert (a : rexp)
| SIf (a : rexp) (l m : list stmt)
| SFor (it : iter) (l : list stmt)
  (* [match a { .. }] and [match (a, c) { .. }]: arms with pattern, guard and body; the arm [_] *)
| SMatch (a : rexp) (c : option rexp) (arms : list (pat * option rexp * list stmt)) (other : option (list stmt))
| SPush (x : var) (a : rexp)            (* [x.push(a)] *)
| SClear (x : var)
| SFill (x : var)                       (* [x.fill(false)] *)
| SSwap (x y : var)                     (* [mem::swap(&mut x, &mut y)] *)
| SCall (f : nat) (refs : list var) (vals : list rexp).  (* [f(&mut x, .., a, ..)] *)
(** A local function without result; a function with its enum, its local functions and its body.
    [f_args] are parameters besides [text]. *)
Record proc := mkProc { pr_refs : list (var * ty); pr_vals : list (var * ty); pr_body : list stmt }.
Record func := mkFunc { f_args : list (var * ty); f_enum : list (label * option ty); f_result : ty; f_procs : list proc; f_body : list stmt }.

(** ** Evaluation *)
Inductive val :=
| VBool (b : bool) | VNum (n : nat) | VMax | VByte (c : N) | VChar (c : N) | VStr (s : span)
| VCon (l : label) (o : option val)
| VPair (a b : val) | VArr (l : list val) | VOpt (o : option val).
Definition env := list (var * val).
Fixpoint look {X} (x : var) (e : list (var * X)) : option X :=
  match e with
  | [] => None
  | (y, v) :: r => if var_eqb x y then Some v else look x r
  end.
Fixpoint assign (x : var) (v : val) (e : env) : env :=
  match e with
  | [] => []
  | (y, u) :: r => if var_eqb x y then (y, v) :: r else (y, u) :: assign x v r
  end.
Definition need {X} (o : option X) : res X := match o with Some x => Ok x | None => NoCompile end.
Definition getv (x : var) (e : env) : res val := need (look x e).

Definition num_eqb (a b : val) : res bool :=
  match a, b with
  | VNum m, VNum n => Ok (m =? n)
  | VMax, VMax => Ok true
  | VNum _, VMax | VMax, VNum _ => Ok false
  | _, _ => NoCompile
  end.
Definition as_bool (v : val) : res bool := match v with VBool b => Ok b | _ => NoCompile end.
Definition as_list (v : val) : res (list val) := match v with VArr l => Ok l | _ => NoCompile end.
Definition index (l : list val) (k : val) : res val :=
  match k with
  | VNum n => match nth_error l n with Some v => Ok v | None => Panic end
  | VMax => Panic
  | _ => NoCompile
  end.
Definition state_is (l : label) (v : val) : res bool :=
  match v with VPair (VCon l' _) _ => Ok (label_eqb l' l) | _ => NoCompile end.
Fixpoint find_state (l : label) (vs : list val) : res (option val) :=
  match vs with
  | [] => Ok None
  | v :: r => do b <- state_is l v; if b then Ok (Some v) else find_state l r
  end.

Section Eval.
  Variable text : list N.
  Fixpoint eval (e : env) (a : rexp) {struct a} : res val :=
    match a with
    | EVar x => getv x e
    | EBool b => Ok (VBool b)
    | ENum n => Ok (VNum n)
    | EMax => Ok VMax
    | EByte c => Ok (VByte c)
    | ELen => Ok (VNum (blen text))
    | ECon l None => Ok (VCon l None)
    | ECon l (Some a) => do v <- eval e a; Ok (VCon l (Some v))
    | EIdx a k => do v <- eval e a; do l <- as_list v; do k <- eval e k; index l k
    | EField s a => do v <- eval e a; match v with VPair x y => Ok (if s then y else x) | _ => NoCompile end
    | EArr l => do vs <- (fix each (l : list rexp) : res (list val) :=
                            match l with [] => Ok [] | a :: r => do v <- eval e a; do vs <- each r; Ok (v :: vs) end) l;
                Ok (VArr vs)
    | ERep a n => do v <- eval e a; Ok (VArr (repeat v n))
    | EVec => Ok (VArr [])
    | EPair a b => do x <- eval e a; do y <- eval e b; Ok (VPair x y)
    | ESome a => do v <- eval e a; Ok (VOpt (Some v))
    | ENothing => Ok (VOpt None)
    | EEq a b => do x <- eval e a; do y <- eval e b; do r <- num_eqb x y; Ok (VBool r)
    | EAnd a b => do x <- eval e a; do p <- as_bool x;
                  if p then do y <- eval e b; do q <- as_bool y; Ok (VBool q) else Ok (VBool false)
    | ENot a => do x <- eval e a; do p <- as_bool x; Ok (VBool (negb p))
    | ELe a b => do x <- eval e a; do y <- eval e b;
                 match x, y with VByte c, VByte d => Ok (VBool (c <=? d)%N) | _, _ => NoCompile end
    | ESucc a => do x <- eval e a; match x with VNum n => Ok (VNum (S n)) | VMax => Panic | _ => NoCompile end
    | EWidth a b => do x <- eval e a; do y <- eval e b;
                    match x, y with VNum n, VChar c => Ok (VNum (n + len_utf8 c)) | VMax, VChar _ => Panic | _, _ => NoCompile end
    | ECheck s a => do x <- eval e a; match x with VChar c => Ok (VBool (static_check (static_atom s) c)) | _ => NoCompile end
    | EGet a b => do x <- eval e a; do y <- eval e b;
                  match x, y with
                  | VNum s, VNum t => Ok (VOpt (if str_get_ok text s t then Some (VStr (s, t)) else None))
                  | VNum _, VMax | VMax, VNum _ | VMax, VMax => Ok (VOpt None)
                  | _, _ => NoCompile
                  end
    | EIsSome a => do x <- eval e a; match x with VOpt o => Ok (VBool (match o with Some _ => true | None => false end)) | _ => NoCompile end
    | EAllNot a => do x <- eval e a; do l <- as_list x; do bs <- mapM as_bool l; Ok (VBool (forallb negb bs))
    | EIsEmpty a => do x <- eval e a; do l <- as_list x; Ok (VBool (match l with [] => true | _ => false end))
    | EPlus a b => do x <- eval e a; do y <- eval e b;
                   match x, y with VNum m, VNum n => Ok (VNum (m + n)) | VNum _, VMax | VMax, VNum _ | VMax, VMax => Panic | _, _ => NoCompile end
    | EBoth a b => do x <- eval e a; do p <- as_bool x; do y <- eval e b; do q <- as_bool y; Ok (VBool (p && q))
    | EBytes => Ok (VArr (map VByte (utf8 text)))
    | EExpect a => do x <- eval e a; match x with VOpt (Some v) => Ok v | VOpt None => Panic | _ => NoCompile end
    | ESlice a b => do x <- eval e a; do y <- eval e b;
                    match x, y with
                    | VNum s, VNum t => if str_get_ok text s t then Ok (VStr (s, t)) else Panic
                    | VNum _, VMax | VMax, VNum _ | VMax, VMax => Panic
                    | _, _ => NoCompile
                    end
    | EFind a l => do x <- eval e a; do vs <- as_list x; do o <- find_state l vs; Ok (VOpt o)
    end.

  (** Assignment to [x.path] *)
  Fixpoint store (v : val) (p : list (val + bool)) (w : val) {struct p} : res val :=
    match p with
    | [] => Ok w
    | inl k :: r => do l <- as_list v; do u <- index l k; do u' <- store u r w;
                    match k with VNum n => Ok (VArr (upd n u' l)) | _ => NoCompile end
    | inr s :: r => match v with
                    | VPair a b => if s then do b' <- store b r w; Ok (VPair a b')
                                   else do a' <- store a r w; Ok (VPair a' b)
                    | _ => NoCompile
                    end
    end.
  Definition access_val (e : env) (a : access) : res (val + bool) :=
    match a with AIdx k => do v <- eval e k; Ok (inl v) | AField s => Ok (inr s) end.
  (** The bindings of each round of a loop *)
  Definition rounds (e : env) (it : iter) : res (list env) :=
    match it with
    | IBytes => Ok (map (fun c => [(Xc, VByte c)]) (utf8 text))
    | IEnum => Ok (map (fun '(i, c) => [(Xc, VByte c); (Xi, VNum i)]) (enumerate (utf8 text)))
    | IChars => Ok (map (fun '(i, c) => [(Xc, VChar c); (Xi, VNum i)]) (char_indices 0 text))
    | IEach x a => do v <- eval e a; do l <- as_list v; Ok (map (fun v => [(x, v)]) l)
    | IPairs a => do v <- eval e a; do l <- as_list v;
                  mapM (fun '(i, v) => match v with
                                       | VPair s t => Ok [(Xend, t); (Xstart, s); (Xi, VNum i)]
                                       | _ => NoCompile
                                       end) (enumerate l)
    end.
  (** Whether a pattern matches, and what it binds *)
  Definition fit (v : val) (c : option val) (p : pat) : res (option env) :=
    match v with
    | VCon l o =>
        if label_eqb l (p_label p) then
          do b <- match p_bind p, o with
                  | None, None => Ok []
                  | Some x, Some u => Ok [(x, u)]
                  | _, _ => NoCompile
                  end;
          match p_range p, c with
          | None, _ => Ok (Some b)
          | Some r, Some (VByte c) => Ok (if in_range c r then Some b else None)
          | _, _ => NoCompile
          end
        else Ok None
    | _ => NoCompile
    end.
  (** Leaving a block drops what was declared in it *)
  Definition leave (e : env) (r : res (env + val)) : res (env + val) :=
    do o <- r; Ok (match o with inl e' => inl (skipn (length e' - length e) e') | inr v => inr v end).
  Fixpoint loop (f : env -> res (env + val)) (items : list env) (e : env) : res (env + val) :=
    match items with
    | [] => Ok (inl e)
    | b :: r => do o <- leave e (f (b ++ e)); match o with inl e' => loop f r e' | inr v => Ok (inr v) end
    end.

  Variable call : nat -> list val -> list val -> res (list val).
  Fixpoint exec (s : stmt) (e : env) {struct s} : res (env + val) :=
    let block := fix block (l : list stmt) (e : env) {struct l} : res (env + val) :=
      match l with
      | [] => Ok (inl e)
      | s :: r => do o <- exec s e; match o with inl e' => block r e' | inr v => Ok (inr v) end
      end in
    match s with
    | SLet x _ a => do v <- eval e a; Ok (inl ((x, v) :: e))
    | STry x _ a => do v <- eval e a;
                    match v with
                    | VOpt (Some u) => Ok (inl ((x, u) :: e))
                    | VOpt None => Ok (inr (VOpt None))
                    | _ => NoCompile
                    end
    | SSet x p a => do v <- eval e a; do u <- getv x e; do q <- mapM (access_val e) p;
                    do u' <- store u q v; Ok (inl (assign x u' e))
    | SRet a => do v <- eval e a; Ok (inr v)
    | SAssert a => do v <- eval e a; do b <- as_bool v; if b then Ok (inl e) else Panic
    | SIf a l m => do v <- eval e a; do b <- as_bool v; leave e (block (if b then l else m) e)
    | SFor it l => do items <- rounds e it; loop (fun e => block l e) items e
    | SMatch a c arms other =>
        do v <- eval e a;
        do w <- match c with None => Ok None | Some c => do w <- eval e c; Ok (Some w) end;
        (fix try (arms : list (pat * option rexp * list stmt)) : res (env + val) :=
           match arms with
           | [] => match other with Some l => leave e (block l e) | None => NoCompile end
           | (p, g, l) :: r =>
               do o <- fit v w p;
               match o with
               | None => try r
               | Some b => do ok <- match g with
                                    | None => Ok true
                                    | Some g => do x <- eval (b ++ e) g; as_bool x
                                    end;
                           if ok then leave e (block l (b ++ e)) else try r
               end
           end) arms
    | SPush x a => do v <- eval e a; do u <- getv x e; do l <- as_list u; Ok (inl (assign x (VArr (l ++ [v])) e))
    | SClear x => do u <- getv x e; do _ <- as_list u; Ok (inl (assign x (VArr []) e))
    | SFill x => do u <- getv x e; do l <- as_list u; Ok (inl (assign x (VArr (map (fun _ => VBool false) l)) e))
    | SSwap x y => do u <- getv x e; do v <- getv y e; Ok (inl (assign y u (assign x v e)))
    | SCall f refs vals =>
        do us <- mapM (fun x => getv x e) refs;
        do vs <- mapM (eval e) vals;
        do us' <- call f us vs;
        if length us' =? length refs
        then Ok (inl (fold_left (fun e p => assign (fst p) (snd p) e) (combine refs us') e))
        else NoCompile
    end.
  Fixpoint block (l : list stmt) (e : env) {struct l} : res (env + val) :=
    match l with
    | [] => Ok (inl e)
    | s :: r => do o <- exec s e; match o with inl e' => block r e' | inr v => Ok (inr v) end
    end.
End Eval.

(** Calling a local function; it can call those declared before it.  The templates have no calls
    between local functions. *)
Definition bind_params (ps : list (var * ty)) (vs : list val) (e : env) : res env :=
  if length ps =? length vs then Ok (rev (combine (map fst ps) vs) ++ e) else NoCompile.
Definition no_call (f : nat) (us vs : list val) : res (list val) := NoCompile.
Definition call_proc (text : list N) (ps : list proc) (f : nat) (us vs : list val) : res (list val) :=
  match nth_error ps f with
  | None => NoCompile
  | Some p =>
      do e <- bind_params (pr_refs p) us [];
      do e <- bind_params (pr_vals p) vs e;
      do o <- leave e (block text no_call (pr_body p) e);
      match o with
      | inl e' => mapM (fun x => getv (fst x) e') (pr_refs p)
      | inr _ => NoCompile
      end
  end.
(** Calling the function on a text; a body that ends without [return] does not compile. *)
Definition run_func (f : func) (text : list N) (vs : list val) : res val :=
  do e <- bind_params (f_args f) vs [];
  do o <- block text (call_proc text (f_procs f)) (f_body f) e;
  match o with inr v => Ok v | inl _ => NoCompile end.

(** ** The checks of the compiler *)
Fixpoint ty_eqb (a b : ty) : bool :=
  match a, b with
  | TBool, TBool | TNum, TNum | TByte, TByte | TChar, TChar | TStr, TStr | TEnum, TEnum => true
  | TPair a b, TPair c d => ty_eqb a c && ty_eqb b d
  | TArr a m, TArr b n => ty_eqb a b && (m =? n)
  | TVec a, TVec b | TOpt a, TOpt b => ty_eqb a b
  | _, _ => false
  end.
(** A reference to an array can be passed as a slice; slices have no static length, as [Vec]. *)
Definition passes (a b : ty) : bool :=
  ty_eqb a b || match a, b with TArr t _, TVec u => ty_eqb t u | _, _ => false end.
Fixpoint all2 {X Y} (f : X -> Y -> bool) (l : list X) (m : list Y) : bool :=
  match l, m with
  | [], [] => true
  | x :: l', y :: m' => f x y && all2 f l' m'
  | _, _ => false
  end.
Definition ctx := list (var * ty).
Section Check.
  Variable enum : list (label * option ty).
  Definition variant (l : label) : option (option ty) :=
    match find (fun p => label_eqb (fst p) l) enum with Some (_, o) => Some o | None => None end.
  (** The type of an expression, where it is evident.  An index that is a literal must be within the
      array (the lint [unconditional_panic] is an error). *)
  Fixpoint infer (g : ctx) (a : rexp) : option ty :=
    match a with
    | EVar x => look x g
    | EBool _ => Some TBool
    | ENum _ | EMax | ELen => Some TNum
    | EByte _ => Some TByte
    | EIdx a k =>
        match infer g a, infer g k with
        | Some (TArr t n), Some TNum => match k with ENum i => if i <? n then Some t else None | _ => Some t end
        | Some (TVec t), Some TNum => Some t
        | _, _ => None
        end
    | EField s a => match infer g a with Some (TPair t u) => Some (if s then u else t) | _ => None end
    | EEq a b => match infer g a, infer g b with Some TNum, Some TNum => Some TBool | _, _ => None end
    | EAnd a b => match infer g a, infer g b with Some TBool, Some TBool => Some TBool | _, _ => None end
    | ENot a => match infer g a with Some TBool => Some TBool | _ => None end
    | ELe a b => match infer g a, infer g b with Some TByte, Some TByte => Some TBool | _, _ => None end
    | ESucc a => match infer g a with Some TNum => Some TNum | _ => None end
    | EWidth a b => match infer g a, infer g b with Some TNum, Some TChar => Some TNum | _, _ => None end
      (* the classes named in [s] must be variants of [BracketCharClass] *)
    | ECheck s a => match infer g a with Some TChar => if atom_compiles s then Some TBool else None | _ => None end
    | EGet a b => match infer g a, infer g b with Some TNum, Some TNum => Some (TOpt TStr) | _, _ => None end
    | EIsSome a => match infer g a with Some (TOpt _) => Some TBool | _ => None end
    | EAllNot a => match infer g a with Some (TArr TBool _) | Some (TVec TBool) => Some TBool | _ => None end
    | EIsEmpty a => match infer g a with Some (TVec _) => Some TBool | _ => None end
    | EPlus a b => match infer g a, infer g b with Some TNum, Some TNum => Some TNum | _, _ => None end
    | EBoth a b => match infer g a, infer g b with Some TBool, Some TBool => Some TBool | _, _ => None end
    | EBytes => Some (TVec TByte)
    | EExpect a => match infer g a with Some (TOpt t) => Some t | _ => None end
    | ESlice a b => match infer g a, infer g b with Some TNum, Some TNum => Some TStr | _, _ => None end
    | EFind a l =>
        match infer g a, variant l with
        | Some (TVec (TPair TEnum t)), Some None => Some (TOpt (TPair TEnum t))
        | _, _ => None
        end
    | ECon _ _ | EArr _ | ERep _ _ | EVec | EPair _ _ | ESome _ | ENothing => None
    end.
  (** Whether an expression has a given type *)
  Fixpoint has (g : ctx) (a : rexp) (t : ty) {struct a} : bool :=
    match a with
    | ECon l o =>
        match t, variant l, o with
        | TEnum, Some None, None => true
        | TEnum, Some (Some u), Some a => has g a u
        | _, _, _ => false
        end
    | EArr l => match t with
                | TArr u n => (length l =? n)
                              && (fix each (l : list rexp) : bool := match l with [] => true | a :: r => has g a u && each r end) l
                | _ => false
                end
    | ERep a n => match t with TArr u m => (n =? m) && has g a u | TVec u => has g a u | _ => false end
    | EVec => match t with TVec _ => true | _ => false end
    | EPair a b => match t with TPair u v => has g a u && has g b v | _ => false end
    | ESome a => match t with TOpt u => has g a u | _ => false end
    | ENothing => match t with TOpt _ => true | _ => false end
    | _ => match infer g a with Some u => ty_eqb u t | None => false end
    end.
  (** The type of a place *)
  Fixpoint place (g : ctx) (t : ty) (p : list access) {struct p} : option ty :=
    match p with
    | [] => Some t
    | AIdx k :: r =>
        match t, infer g k with
        | TArr u n, Some TNum => match k with ENum i => if i <? n then place g u r else None | _ => place g u r end
        | TVec u, Some TNum => place g u r
        | _, _ => None
        end
    | AField s :: r => match t with TPair a b => place g (if s then b else a) r | _ => None end
    end.
  Definition iter_ctx (g : ctx) (it : iter) : option ctx :=
    match it with
    | IBytes => Some [(Xc, TByte)]
    | IEnum => Some [(Xc, TByte); (Xi, TNum)]
    | IChars => Some [(Xc, TChar); (Xi, TNum)]
    | IEach x a => match infer g a with Some (TVec t) | Some (TArr t _) => Some [(x, t)] | _ => None end
    | IPairs a => match infer g a with
                  | Some (TArr (TPair t u) _) => Some [(Xend, u); (Xstart, t); (Xi, TNum)]
                  | _ => None
                  end
    end.
  (** What a pattern binds; an empty range is an error *)
  Definition pat_ctx (paired : bool) (p : pat) : option ctx :=
    match variant (p_label p), p_bind p, p_range p with
    | Some o, b, r =>
        if match r with None => true | Some r => paired && (fst r <=? snd r)%N end
        then match o, b with
             | None, None => Some []
             | Some t, Some x => Some [(x, t)]
             | _, _ => None
             end
        else None
    | None, _, _ => None
    end.
  (** Without an arm [_], every variant needs an arm that takes all its values *)
  Definition covered (arms : list (pat * option rexp * list stmt)) : bool :=
    forallb (fun v => existsb (fun '(p, g, _) =>
                                 label_eqb (p_label p) (fst v)
                                 && match g, p_range p with None, None => true | _, _ => false end) arms) enum.
  Variable result : option ty.
  Variable procs : list (list ty * list ty).
  Fixpoint good (s : stmt) (g : ctx) {struct s} : option ctx :=
    let goods := fix goods (l : list stmt) (g : ctx) {struct l} : bool :=
      match l with
      | [] => true
      | s :: r => match good s g with Some g' => goods r g' | None => false end
      end in
    match s with
    | SLet x t a => if has g a t then Some ((x, t) :: g) else None
    | STry x t a => match infer g a, result with
                    | Some (TOpt u), Some (TOpt _) => if ty_eqb u t then Some ((x, t) :: g) else None
                    | _, _ => None
                    end
    | SSet x p a => match look x g with
                    | Some t => match place g t p with
                                | Some u => if has g a u then Some g else None
                                | None => None
                                end
                    | None => None
                    end
    | SRet a => match result with Some t => if has g a t then Some g else None | None => None end
    | SAssert a => if has g a TBool then Some g else None
    | SIf a l m => if has g a TBool && goods l g && goods m g then Some g else None
    | SFor it l => match iter_ctx g it with Some b => if goods l (b ++ g) then Some g else None | None => None end
    | SMatch a c arms other =>
        if has g a TEnum
           && match c with None => true | Some c => has g c TByte end
           && match other with Some l => goods l g | None => covered arms end
           && (fix each (arms : list (pat * option rexp * list stmt)) : bool :=
                 match arms with
                 | [] => true
                 | (p, h, l) :: r =>
                     match pat_ctx (match c with None => false | Some _ => true end) p with
                     | Some b => match h with None => true | Some h => has (b ++ g) h TBool end && goods l (b ++ g)
                     | None => false
                     end && each r
                 end) arms
        then Some g else None
    | SPush x a => match look x g with Some (TVec t) => if has g a t then Some g else None | _ => None end
    | SClear x => match look x g with Some (TVec _) => Some g | _ => None end
    | SFill x => match look x g with Some (TArr TBool _) => Some g | _ => None end
    | SSwap x y => match look x g, look y g with Some t, Some u => if ty_eqb t u then Some g else None | _, _ => None end
    | SCall f refs vals =>
        match nth_error procs f with
        | Some (ts, us) =>
            if all2 (fun x t => match look x g with Some u => passes u t | None => false end) refs ts
               && all2 (has g) vals us
            then Some g else None
        | None => None
        end
    end.
  Fixpoint goods (l : list stmt) (g : ctx) {struct l} : bool :=
    match l with
    | [] => true
    | s :: r => match good s g with Some g' => goods r g' | None => false end
    end.
End Check.
(** A body must end by returning. *)
Fixpoint returns (s : stmt) : bool :=
  match s with
  | SRet _ => true
  | SMatch _ _ arms other =>
      (fix each (arms : list (pat * option rexp * list stmt)) : bool :=
         match arms with
         | [] => true
         | (_, _, l) :: r => (fix some (l : list stmt) : bool := match l with [] => false | s :: r => returns s || some r end) l && each r
         end) arms
      && match other with
         | None => true
         | Some l => (fix some (l : list stmt) : bool := match l with [] => false | s :: r => returns s || some r end) l
         end
  | _ => false
  end.
Fixpoint distinct_labels (l : list label) : bool :=
  match l with [] => true | a :: r => negb (existsb (label_eqb a) r) && distinct_labels r end.
Fixpoint distinct_vars (l : list var) : bool :=
  match l with [] => true | a :: r => negb (existsb (var_eqb a) r) && distinct_vars r end.
Definition accepts (f : func) : bool :=
  distinct_labels (map fst (f_enum f))
  && forallb (fun p => distinct_vars (map fst (pr_refs p ++ pr_vals p))
                       && goods (f_enum f) None [] (pr_body p) (rev (pr_vals p) ++ rev (pr_refs p))) (f_procs f)
  && goods (f_enum f) (Some (f_result f)) (map (fun p => (map snd (pr_refs p), map snd (pr_vals p))) (f_procs f)) (f_body f) (rev (f_args f))
  && existsb returns (f_body f).
