(** The evaluation of Rust.v and RustFn.v with machine integers: [usize] goes up to [top], [usize::MAX] is that number, and [over m n] is what
    happens for a sum [m + n] beyond it: [checked] with overflow checks, [wrapping] without them.  Everything that does not compute with numbers is as there; the same
    lines of /repo are covered.
    Simplification: the counter of [enumerate] and the lengths of vectors do not overflow (no object in memory has more than [isize::MAX] bytes). *)
From Verif Require Export RustFn.
Open Scope nat_scope.
Open Scope list_scope.

(** rustc with and without -C overflow-checks (debug and release builds) *)
Definition checked : nat -> nat -> res val := fun _ _ => Panic.
Definition wrapping (top : nat) : nat -> nat -> res val := fun m n => Ok (VNum (m + n - S top)).

Section Machine.
  Variable over : nat -> nat -> res val.
  Variable top : nat.
  Variable text : list N.
  Definition sum (m n : nat) : res val := if m + n <=? top then Ok (VNum (m + n)) else over m n.
  Definition indexw (l : list val) (k : val) : res val :=
    match k with VNum n => match nth_error l n with Some v => Ok v | None => Panic end | _ => NoCompile end.
  Fixpoint evalw (e : env) (a : rexp) {struct a} : res val :=
    match a with
    | EVar x => getv x e
    | EBool b => Ok (VBool b)
    | ENum n => Ok (VNum n)
    | EMax => Ok (VNum top)
    | EByte c => Ok (VByte c)
    | ELen => Ok (VNum (blen text))
    | ECon l None => Ok (VCon l None)
    | ECon l (Some a) => do v <- evalw e a; Ok (VCon l (Some v))
    | EIdx a k => do v <- evalw e a; do l <- as_list v; do k <- evalw e k; indexw l k
    | EField s a => do v <- evalw e a; match v with VPair x y => Ok (if s then y else x) | _ => NoCompile end
    | EArr l => do vs <- (fix each (l : list rexp) : res (list val) :=
                            match l with [] => Ok [] | a :: r => do v <- evalw e a; do vs <- each r; Ok (v :: vs) end) l;
                Ok (VArr vs)
    | ERep a n => do v <- evalw e a; Ok (VArr (repeat v n))
    | EVec => Ok (VArr [])
    | EPair a b => do x <- evalw e a; do y <- evalw e b; Ok (VPair x y)
    | ESome a => do v <- evalw e a; Ok (VOpt (Some v))
    | ENothing => Ok (VOpt None)
    | EEq a b => do x <- evalw e a; do y <- evalw e b;
                 match x, y with VNum m, VNum n => Ok (VBool (m =? n)) | _, _ => NoCompile end
    | EAnd a b => do x <- evalw e a; do p <- as_bool x;
                  if p then do y <- evalw e b; do q <- as_bool y; Ok (VBool q) else Ok (VBool false)
    | ENot a => do x <- evalw e a; do p <- as_bool x; Ok (VBool (negb p))
    | ELe a b => do x <- evalw e a; do y <- evalw e b;
                 match x, y with VByte c, VByte d => Ok (VBool (c <=? d)%N) | _, _ => NoCompile end
    | ESucc a => do x <- evalw e a; match x with VNum n => sum n 1 | _ => NoCompile end
    | EWidth a b => do x <- evalw e a; do y <- evalw e b;
                    match x, y with VNum n, VChar c => sum n (len_utf8 c) | _, _ => NoCompile end
    | ECheck s a => do x <- evalw e a; match x with VChar c => Ok (VBool (static_check (static_atom s) c)) | _ => NoCompile end
    | EGet a b => do x <- evalw e a; do y <- evalw e b;
                  match x, y with
                  | VNum s, VNum t => Ok (VOpt (if str_get_ok text s t then Some (VStr (s, t)) else None))
                  | _, _ => NoCompile
                  end
    | EIsSome a => do x <- evalw e a; match x with VOpt o => Ok (VBool (match o with Some _ => true | None => false end)) | _ => NoCompile end
    | EAllNot a => do x <- evalw e a; do l <- as_list x; do bs <- mapM as_bool l; Ok (VBool (forallb negb bs))
    | EIsEmpty a => do x <- evalw e a; do l <- as_list x; Ok (VBool (match l with [] => true | _ => false end))
    | EPlus a b => do x <- evalw e a; do y <- evalw e b;
                   match x, y with VNum m, VNum n => sum m n | _, _ => NoCompile end
    | EBoth a b => do x <- evalw e a; do p <- as_bool x; do y <- evalw e b; do q <- as_bool y; Ok (VBool (p && q))
    | EBytes => Ok (VArr (map VByte (utf8 text)))
    | EExpect a => do x <- evalw e a; match x with VOpt (Some v) => Ok v | VOpt None => Panic | _ => NoCompile end
    | ESlice a b => do x <- evalw e a; do y <- evalw e b;
                    match x, y with
                    | VNum s, VNum t => if str_get_ok text s t then Ok (VStr (s, t)) else Panic
                    | _, _ => NoCompile
                    end
    | EFind a l => do x <- evalw e a; do vs <- as_list x; do o <- find_state l vs; Ok (VOpt o)
    end.
  Fixpoint storew (v : val) (p : list (val + bool)) (w : val) {struct p} : res val :=
    match p with
    | [] => Ok w
    | inl k :: r => do l <- as_list v; do u <- indexw l k; do u' <- storew u r w;
                    match k with VNum n => Ok (VArr (upd n u' l)) | _ => NoCompile end
    | inr s :: r => match v with
                    | VPair a b => if s then do b' <- storew b r w; Ok (VPair a b')
                                   else do a' <- storew a r w; Ok (VPair a' b)
                    | _ => NoCompile
                    end
    end.
  Definition access_valw (e : env) (a : access) : res (val + bool) :=
    match a with AIdx k => do v <- evalw e k; Ok (inl v) | AField s => Ok (inr s) end.
  Definition roundsw (e : env) (it : iter) : res (list env) :=
    match it with
    | IEach x a => do v <- evalw e a; do l <- as_list v; Ok (map (fun v => [(x, v)]) l)
    | IPairs a => do v <- evalw e a; do l <- as_list v;
                  mapM (fun '(i, v) => match v with
                                       | VPair s t => Ok [(Xend, t); (Xstart, s); (Xi, VNum i)]
                                       | _ => NoCompile
                                       end) (enumerate l)
    | _ => rounds text e it
    end.
  Variable call : nat -> list val -> list val -> res (list val).
  Fixpoint execw (s : stmt) (e : env) {struct s} : res (env + val) :=
    let blockw := fix blockw (l : list stmt) (e : env) {struct l} : res (env + val) :=
      match l with
      | [] => Ok (inl e)
      | s :: r => do o <- execw s e; match o with inl e' => blockw r e' | inr v => Ok (inr v) end
      end in
    match s with
    | SLet x _ a => do v <- evalw e a; Ok (inl ((x, v) :: e))
    | STry x _ a => do v <- evalw e a;
                    match v with
                    | VOpt (Some u) => Ok (inl ((x, u) :: e))
                    | VOpt None => Ok (inr (VOpt None))
                    | _ => NoCompile
                    end
    | SSet x p a => do v <- evalw e a; do u <- getv x e; do q <- mapM (access_valw e) p;
                    do u' <- storew u q v; Ok (inl (assign x u' e))
    | SRet a => do v <- evalw e a; Ok (inr v)
    | SAssert a => do v <- evalw e a; do b <- as_bool v; if b then Ok (inl e) else Panic
    | SIf a l m => do v <- evalw e a; do b <- as_bool v; leave e (blockw (if b then l else m) e)
    | SFor it l => do items <- roundsw e it; loop (fun e => blockw l e) items e
    | SMatch a c arms other =>
        do v <- evalw e a;
        do w <- match c with None => Ok None | Some c => do w <- evalw e c; Ok (Some w) end;
        (fix try (arms : list (pat * option rexp * list stmt)) : res (env + val) :=
           match arms with
           | [] => match other with Some l => leave e (blockw l e) | None => NoCompile end
           | (p, g, l) :: r =>
               do o <- fit v w p;
               match o with
               | None => try r
               | Some b => do ok <- match g with
                                    | None => Ok true
                                    | Some g => do x <- evalw (b ++ e) g; as_bool x
                                    end;
                           if ok then leave e (blockw l (b ++ e)) else try r
               end
           end) arms
    | SPush x a => do v <- evalw e a; do u <- getv x e; do l <- as_list u; Ok (inl (assign x (VArr (l ++ [v])) e))
    | SClear x => do u <- getv x e; do _ <- as_list u; Ok (inl (assign x (VArr []) e))
    | SFill x => do u <- getv x e; do l <- as_list u; Ok (inl (assign x (VArr (map (fun _ => VBool false) l)) e))
    | SSwap x y => do u <- getv x e; do v <- getv y e; Ok (inl (assign y u (assign x v e)))
    | SCall f refs vals =>
        do us <- mapM (fun x => getv x e) refs;
        do vs <- mapM (evalw e) vals;
        do us' <- call f us vs;
        if length us' =? length refs
        then Ok (inl (fold_left (fun e p => assign (fst p) (snd p) e) (combine refs us') e))
        else NoCompile
    end.
  Fixpoint blockw (l : list stmt) (e : env) {struct l} : res (env + val) :=
    match l with
    | [] => Ok (inl e)
    | s :: r => do o <- execw s e; match o with inl e' => blockw r e' | inr v => Ok (inr v) end
    end.
End Machine.
Definition call_procw (over : nat -> nat -> res val) (top : nat) (text : list N) (ps : list proc) (f : nat) (us vs : list val) : res (list val) :=
  match nth_error ps f with
  | None => NoCompile
  | Some p =>
      do e <- bind_params (pr_refs p) us [];
      do e <- bind_params (pr_vals p) vs e;
      do o <- leave e (blockw over top text no_call (pr_body p) e);
      match o with
      | inl e' => mapM (fun x => getv (fst x) e') (pr_refs p)
      | inr _ => NoCompile
      end
  end.
Definition run_funcw (over : nat -> nat -> res val) (top : nat) (f : func) (text : list N) (vs : list val) : res val :=
  do e <- bind_params (f_args f) vs [];
  do o <- blockw over top text (call_procw over top text (f_procs f)) (f_body f) e;
  match o with inr v => Ok v | inl _ => NoCompile end.

(** ** Functions that call one another *)
Section MachineFn.
  Variable over : nat -> nat -> res val.
  Variable top : nat.
  Variable text : list N.
  Fixpoint fexecw (s : fstmt) (e : env) {struct s} : res (env + outcome) :=
    let fblockw := fix fblockw (l : list fstmt) (e : env) {struct l} : res (env + outcome) :=
      match l with
      | [] => Ok (inl e)
      | s :: r => do o <- fexecw s e; match o with inl e' => fblockw r e' | inr v => Ok (inr v) end
      end in
    match s with
    | FS s => do o <- execw over top text no_call s e; Ok (match o with inl e' => inl e' | inr v => inr (Ret v) end)
    | FIf a l m => do v <- evalw over top text e a; do b <- as_bool v; fleave e (fblockw (if b then l else m) e)
    | FSplit n l =>
        do v <- getv Xbytes e; do bs <- as_list v;
        if n <=? length bs then Ok (inl ((Xrest, VArr (skipn n bs)) :: (Xrun_part, VArr (firstn n bs)) :: e))
        else do o <- fblockw l e; match o with inr v => Ok (inr v) | inl _ => NoCompile end
    | FNext none arms other =>
        do v <- getv Xbytes e; do bs <- as_list v;
        match bs with
        | [] => fleave e (fblockw none e)
        | VByte c :: rest =>
            let e := assign Xbytes (VArr rest) e in
            (fix try (arms : list (range * option rexp * list fstmt)) : res (env + outcome) :=
               match arms with
               | [] => fleave e (fblockw other e)
               | (r, g, l) :: arms' =>
                   if in_range c r
                   then do ok <- match g with None => Ok true | Some g => do x <- evalw over top text e g; as_bool x end;
                        if ok then fleave e (fblockw l e) else try arms'
                   else try arms'
               end) arms
        | _ => NoCompile
        end
    | FGo f args => do vs <- mapM (evalw over top text e) args; Ok (inr (Go f vs))
    | FError => NoCompile
    end.
  Fixpoint fblockw (l : list fstmt) (e : env) {struct l} : res (env + outcome) :=
    match l with
    | [] => Ok (inl e)
    | s :: r => do o <- fexecw s e; match o with inl e' => fblockw r e' | inr v => Ok (inr v) end
    end.
  Fixpoint gow (fuel : nat) (fs : list sfun) (f : nat) (vs : list val) : res val :=
    match fuel with
    | O => Fuel
    | S k =>
        match find (fun sf => sf_id sf =? f) fs with
        | None => NoCompile
        | Some sf =>
            do e <- bind_params (sf_args sf) vs [];
            do o <- fblockw (sf_body sf) e;
            match o with
            | inl _ => NoCompile
            | inr (Ret v) => Ok v
            | inr (Go g ws) => gow k fs g ws
            end
        end
    end.
  Definition run_progw (p : prog) : res val :=
    do o <- fblockw (g_body p) [];
    match o with
    | inl _ => NoCompile
    | inr (Ret v) => Ok v
    | inr (Go f vs) => gow (S (length (utf8 text))) (g_states p) f vs
    end.
End MachineFn.
