(** * AstInd: induction over the mutually recursive part of the syntax tree *)
From Verif Require Import Base Tokens Ast.

Definition optP {A} (P : A -> Prop) (o : option A) : Prop := match o with Some a => P a | None => True end.
Definition all_ind {A} (P : A -> Prop) (f : forall a, P a) : forall l, Forall P l :=
  fix go l := match l with [] => Forall_nil P | a :: r => Forall_cons a (f a) (go r) end.
Definition opt_ind {A} (P : A -> Prop) (f : forall a, P a) (o : option A) : optP P o :=
  match o with Some a => f a | None => I end.

Section Ind.
Variables (PE : expr -> Prop) (PN : expr_ -> Prop) (PV : variable -> Prop) (PF : fundecl -> Prop) (PP : param -> Prop) (PS : stmt -> Prop) (PT : stmt_ -> Prop) (PD : decl -> Prop) (PM : member -> Prop) (PC : catch -> Prop) (PW : swcase -> Prop).
Hypothesis HEx : forall x0 x1, PN x0 -> PE (Ex x0 x1).
Hypothesis HEPath : forall x0, PN (EPath x0).
Hypothesis HEConst : forall x0, PN (EConst x0).
Hypothesis HEString : forall x0, PN (EString x0).
Hypothesis HEBinString : forall x0, PN (EBinString x0).
Hypothesis HEInt : forall x0, PN (EInt x0).
Hypothesis HEDouble : forall x0, PN (EDouble x0).
Hypothesis HEArray : forall x0, Forall (fun kv => optP PE (fst kv) /\ PE (snd kv)) x0 -> PN (EArray x0).
Hypothesis HEVar : forall x0, PV x0 -> PN (EVar x0).
Hypothesis HERef : forall x0, PE x0 -> PN (ERef x0).
Hypothesis HEClone : forall x0, PE x0 -> PN (EClone x0).
Hypothesis HEIsset : forall x0, Forall PE x0 -> PN (EIsset x0).
Hypothesis HEEmpty : forall x0, PE x0 -> PN (EEmpty x0).
Hypothesis HEExit : forall x0, optP PE x0 -> PN (EExit x0).
Hypothesis HEInclude : forall x0 x1, PE x1 -> PN (EInclude x0 x1).
Hypothesis HEArrayIdx : forall x0 x1, PE x0 -> Forall (optP PE) x1 -> PN (EArrayIdx x0 x1).
Hypothesis HEObjMember : forall x0 x1, PE x0 -> Forall PE x1 -> PN (EObjMember x0 x1).
Hypothesis HEStaticMember : forall x0 x1, PE x0 -> Forall PE x1 -> PN (EStaticMember x0 x1).
Hypothesis HECall : forall x0 x1, PE x0 -> Forall PE x1 -> PN (ECall x0 x1).
Hypothesis HENew : forall x0 x1, PE x0 -> Forall PE x1 -> PN (ENew x0 x1).
Hypothesis HEUnpack : forall x0, PE x0 -> PN (EUnpack x0).
Hypothesis HEUnary : forall x0 x1, PE x1 -> PN (EUnary x0 x1).
Hypothesis HEBinary : forall x0 x1 x2, PE x1 -> PE x2 -> PN (EBinary x0 x1 x2).
Hypothesis HEInstanceOf : forall x0 x1, PE x0 -> PE x1 -> PN (EInstanceOf x0 x1).
Hypothesis HECast : forall x0 x1, PE x1 -> PN (ECast x0 x1).
Hypothesis HEYield : forall x0, optP PE x0 -> PN (EYield x0).
Hypothesis HEFunction : forall x0, PF x0 -> PN (EFunction x0).
Hypothesis HEAssign : forall x0 x1, PE x0 -> PE x1 -> PN (EAssign x0 x1).
Hypothesis HECompound : forall x0 x1 x2, PE x0 -> PE x2 -> PN (ECompound x0 x1 x2).
Hypothesis HEAssignRef : forall x0 x1, PE x0 -> PE x1 -> PN (EAssignRef x0 x1).
Hypothesis HEList : forall x0, Forall (fun kv => optP PE (fst kv) /\ PE (snd kv)) x0 -> PN (EList x0).
Hypothesis HETernary : forall x0 x1 x2, PE x0 -> optP PE x1 -> PE x2 -> PN (ETernary x0 x1 x2).
Hypothesis HVName : forall x0, PV (VName x0).
Hypothesis HVFetch : forall x0, PE x0 -> PV (VFetch x0).
Hypothesis HmkFun : forall x0 x1 x2 x3, Forall PP x0 -> optP (Forall PS) x1 -> PF (mkFun x0 x1 x2 x3).
Hypothesis HmkParam : forall x0 x1 x2 x3 x4, optP PE x4 -> PP (mkParam x0 x1 x2 x3 x4).
Hypothesis HSt : forall x0 x1, PT x0 -> PS (St x0 x1).
Hypothesis HSNone : PT SNone.
Hypothesis HSBlock : forall x0, Forall PS x0 -> PT (SBlock x0).
Hypothesis HSDecl : forall x0, PD x0 -> PT (SDecl x0).
Hypothesis HSUse : forall x0, PT (SUse x0).
Hypothesis HSExpr : forall x0, PE x0 -> PT (SExpr x0).
Hypothesis HSEcho : forall x0, Forall PE x0 -> PT (SEcho x0).
Hypothesis HSReturn : forall x0, optP PE x0 -> PT (SReturn x0).
Hypothesis HSBreak : forall x0, optP PE x0 -> PT (SBreak x0).
Hypothesis HSContinue : forall x0, optP PE x0 -> PT (SContinue x0).
Hypothesis HSUnset : forall x0, Forall PE x0 -> PT (SUnset x0).
Hypothesis HSIf : forall x0 x1 x2, PE x0 -> Forall PS x1 -> Forall PS x2 -> PT (SIf x0 x1 x2).
Hypothesis HSWhile : forall x0 x1, PE x0 -> Forall PS x1 -> PT (SWhile x0 x1).
Hypothesis HSDoWhile : forall x0 x1, Forall PS x0 -> PE x1 -> PT (SDoWhile x0 x1).
Hypothesis HSFor : forall x0 x1 x2 x3, optP PE x0 -> optP PE x1 -> optP PE x2 -> Forall PS x3 -> PT (SFor x0 x1 x2 x3).
Hypothesis HSForEach : forall x0 x1 x2 x3, PE x0 -> optP PE x1 -> PE x2 -> Forall PS x3 -> PT (SForEach x0 x1 x2 x3).
Hypothesis HSTry : forall x0 x1 x2, Forall PS x0 -> Forall PC x1 -> optP (Forall PS) x2 -> PT (STry x0 x1 x2).
Hypothesis HSThrow : forall x0, PE x0 -> PT (SThrow x0).
Hypothesis HSSwitch : forall x0 x1, PE x0 -> Forall PW x1 -> PT (SSwitch x0 x1).
Hypothesis HDNamespace : forall x0, PD (DNamespace x0).
Hypothesis HDFunction : forall x0 x1, PF x1 -> PD (DFunction x0 x1).
Hypothesis HDClass : forall x0 x1 x2 x3 x4, Forall PM x4 -> PD (DClass x0 x1 x2 x3 x4).
Hypothesis HDInterface : forall x0 x1 x2, Forall PM x2 -> PD (DInterface x0 x1 x2).
Hypothesis HDTrait : forall x0 x1, Forall PM x1 -> PD (DTrait x0 x1).
Hypothesis HDStaticVars : forall x0, Forall (fun kv => optP PE (snd kv)) x0 -> PD (DStaticVars x0).
Hypothesis HDGlobalVars : forall x0, Forall PV x0 -> PD (DGlobalVars x0).
Hypothesis HMConst : forall x0 x1 x2, PE x2 -> PM (MConst x0 x1 x2).
Hypothesis HMProp : forall x0 x1 x2, optP PE x2 -> PM (MProp x0 x1 x2).
Hypothesis HMMethod : forall x0 x1 x2, PF x2 -> PM (MMethod x0 x1 x2).
Hypothesis HMTraitUse : forall x0 x1, PM (MTraitUse x0 x1).
Hypothesis HmkCatch : forall x0 x1 x2, Forall PS x2 -> PC (mkCatch x0 x1 x2).
Hypothesis HmkCase : forall x0 x1 x2, Forall PE x0 -> Forall PS x2 -> PW (mkCase x0 x1 x2).

Fixpoint iPE (x : expr) : PE x :=
  match x with
  | Ex x0 x1 => HEx x0 x1 (iPN x0)
  end
with iPN (x : expr_) : PN x :=
  match x with
  | EPath x0 => HEPath x0 
  | EConst x0 => HEConst x0 
  | EString x0 => HEString x0 
  | EBinString x0 => HEBinString x0 
  | EInt x0 => HEInt x0 
  | EDouble x0 => HEDouble x0 
  | EArray x0 => HEArray x0 (all_ind _ (fun kv => match kv as kv0 return optP PE (fst kv0) /\ PE (snd kv0) with (k, v) => conj (opt_ind _ iPE k) (iPE v) end) x0)
  | EVar x0 => HEVar x0 (iPV x0)
  | ERef x0 => HERef x0 (iPE x0)
  | EClone x0 => HEClone x0 (iPE x0)
  | EIsset x0 => HEIsset x0 (all_ind _ iPE x0)
  | EEmpty x0 => HEEmpty x0 (iPE x0)
  | EExit x0 => HEExit x0 (opt_ind _ iPE x0)
  | EInclude x0 x1 => HEInclude x0 x1 (iPE x1)
  | EArrayIdx x0 x1 => HEArrayIdx x0 x1 (iPE x0) (all_ind _ (fun o => opt_ind _ iPE o) x1)
  | EObjMember x0 x1 => HEObjMember x0 x1 (iPE x0) (all_ind _ iPE x1)
  | EStaticMember x0 x1 => HEStaticMember x0 x1 (iPE x0) (all_ind _ iPE x1)
  | ECall x0 x1 => HECall x0 x1 (iPE x0) (all_ind _ iPE x1)
  | ENew x0 x1 => HENew x0 x1 (iPE x0) (all_ind _ iPE x1)
  | EUnpack x0 => HEUnpack x0 (iPE x0)
  | EUnary x0 x1 => HEUnary x0 x1 (iPE x1)
  | EBinary x0 x1 x2 => HEBinary x0 x1 x2 (iPE x1) (iPE x2)
  | EInstanceOf x0 x1 => HEInstanceOf x0 x1 (iPE x0) (iPE x1)
  | ECast x0 x1 => HECast x0 x1 (iPE x1)
  | EYield x0 => HEYield x0 (opt_ind _ iPE x0)
  | EFunction x0 => HEFunction x0 (iPF x0)
  | EAssign x0 x1 => HEAssign x0 x1 (iPE x0) (iPE x1)
  | ECompound x0 x1 x2 => HECompound x0 x1 x2 (iPE x0) (iPE x2)
  | EAssignRef x0 x1 => HEAssignRef x0 x1 (iPE x0) (iPE x1)
  | EList x0 => HEList x0 (all_ind _ (fun kv => match kv as kv0 return optP PE (fst kv0) /\ PE (snd kv0) with (k, v) => conj (opt_ind _ iPE k) (iPE v) end) x0)
  | ETernary x0 x1 x2 => HETernary x0 x1 x2 (iPE x0) (opt_ind _ iPE x1) (iPE x2)
  end
with iPV (x : variable) : PV x :=
  match x with
  | VName x0 => HVName x0 
  | VFetch x0 => HVFetch x0 (iPE x0)
  end
with iPF (x : fundecl) : PF x :=
  match x with
  | mkFun x0 x1 x2 x3 => HmkFun x0 x1 x2 x3 (all_ind _ iPP x0) (opt_ind _ (all_ind _ iPS) x1)
  end
with iPP (x : param) : PP x :=
  match x with
  | mkParam x0 x1 x2 x3 x4 => HmkParam x0 x1 x2 x3 x4 (opt_ind _ iPE x4)
  end
with iPS (x : stmt) : PS x :=
  match x with
  | St x0 x1 => HSt x0 x1 (iPT x0)
  end
with iPT (x : stmt_) : PT x :=
  match x with
  | SNone  => HSNone  
  | SBlock x0 => HSBlock x0 (all_ind _ iPS x0)
  | SDecl x0 => HSDecl x0 (iPD x0)
  | SUse x0 => HSUse x0 
  | SExpr x0 => HSExpr x0 (iPE x0)
  | SEcho x0 => HSEcho x0 (all_ind _ iPE x0)
  | SReturn x0 => HSReturn x0 (opt_ind _ iPE x0)
  | SBreak x0 => HSBreak x0 (opt_ind _ iPE x0)
  | SContinue x0 => HSContinue x0 (opt_ind _ iPE x0)
  | SUnset x0 => HSUnset x0 (all_ind _ iPE x0)
  | SIf x0 x1 x2 => HSIf x0 x1 x2 (iPE x0) (all_ind _ iPS x1) (all_ind _ iPS x2)
  | SWhile x0 x1 => HSWhile x0 x1 (iPE x0) (all_ind _ iPS x1)
  | SDoWhile x0 x1 => HSDoWhile x0 x1 (all_ind _ iPS x0) (iPE x1)
  | SFor x0 x1 x2 x3 => HSFor x0 x1 x2 x3 (opt_ind _ iPE x0) (opt_ind _ iPE x1) (opt_ind _ iPE x2) (all_ind _ iPS x3)
  | SForEach x0 x1 x2 x3 => HSForEach x0 x1 x2 x3 (iPE x0) (opt_ind _ iPE x1) (iPE x2) (all_ind _ iPS x3)
  | STry x0 x1 x2 => HSTry x0 x1 x2 (all_ind _ iPS x0) (all_ind _ iPC x1) (opt_ind _ (all_ind _ iPS) x2)
  | SThrow x0 => HSThrow x0 (iPE x0)
  | SSwitch x0 x1 => HSSwitch x0 x1 (iPE x0) (all_ind _ iPW x1)
  end
with iPD (x : decl) : PD x :=
  match x with
  | DNamespace x0 => HDNamespace x0 
  | DFunction x0 x1 => HDFunction x0 x1 (iPF x1)
  | DClass x0 x1 x2 x3 x4 => HDClass x0 x1 x2 x3 x4 (all_ind _ iPM x4)
  | DInterface x0 x1 x2 => HDInterface x0 x1 x2 (all_ind _ iPM x2)
  | DTrait x0 x1 => HDTrait x0 x1 (all_ind _ iPM x1)
  | DStaticVars x0 => HDStaticVars x0 (all_ind _ (fun kv => match kv as kv0 return optP PE (snd kv0) with (k, v) => opt_ind _ iPE v end) x0)
  | DGlobalVars x0 => HDGlobalVars x0 (all_ind _ iPV x0)
  end
with iPM (x : member) : PM x :=
  match x with
  | MConst x0 x1 x2 => HMConst x0 x1 x2 (iPE x2)
  | MProp x0 x1 x2 => HMProp x0 x1 x2 (opt_ind _ iPE x2)
  | MMethod x0 x1 x2 => HMMethod x0 x1 x2 (iPF x2)
  | MTraitUse x0 x1 => HMTraitUse x0 x1 
  end
with iPC (x : catch) : PC x :=
  match x with
  | mkCatch x0 x1 x2 => HmkCatch x0 x1 x2 (all_ind _ iPS x2)
  end
with iPW (x : swcase) : PW x :=
  match x with
  | mkCase x0 x1 x2 => HmkCase x0 x1 x2 (all_ind _ iPE x0) (all_ind _ iPS x2)
  end.

Lemma ast_ind : (forall x, PE x) /\ (forall x, PN x) /\ (forall x, PV x) /\ (forall x, PF x) /\ (forall x, PP x) /\ (forall x, PS x) /\ (forall x, PT x) /\ (forall x, PD x) /\ (forall x, PM x) /\ (forall x, PC x) /\ (forall x, PW x).
Proof. repeat split; [exact iPE | exact iPN | exact iPV | exact iPF | exact iPP | exact iPS | exact iPT | exact iPD | exact iPM | exact iPC | exact iPW]. Qed.
End Ind.
