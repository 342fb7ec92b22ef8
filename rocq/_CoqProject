-Q theories Verif
theories/Base.v
theories/L2_Resolve.v
theories/L_Activation.v
theories/L_Alias.v
theories/L_Alloc.v
theories/L_Ast.v
theories/L_Ast2.v
theories/L_Ast3.v
theories/L_AstProto.v
theories/L_AstProto2.v
theories/L_AstProto3.v
theories/L_AstProto4.v
theories/L_AstProto5.v
theories/L_Attr.v
theories/L_Budget.v
theories/L_ByteString.v
theories/L_ByteString2.v
theories/L_ByteString3.v
theories/L_Calendar.v
theories/L_Checker.v
theories/L_Checker2.v
theories/L_Checker3.v
theories/L_Compare.v
theories/L_Compare2.v
theories/L_Conv.v
theories/L_Convert.v
theories/L_Convert2.v
theories/L_Convert3.v
theories/L_Core.v
theories/L_DBudget.v
theories/L_DDepth.v
theories/L_DRange.v
theories/L_DRun.v
theories/L_DSafe.v
theories/L_DSim.v
theories/L_DTree.v
theories/L_Decl.v
theories/L_Decl2.v
theories/L_Decl3.v
theories/L_Decl4.v
theories/L_Direct.v
theories/L_Eval.v
theories/L_Ext.v
theories/L_Float.v
theories/L_Fold.v
theories/L_Format.v
theories/L_Format2.v
theories/L_Format3.v
theories/L_Format4.v
theories/L_Fresh.v
theories/L_Func.v
theories/L_Grammar.v
theories/L_Grammar2.v
theories/L_Growth.v
theories/L_Growth2.v
theories/L_Growth3.v
theories/L_Growth4.v
theories/L_InPlace.v
theories/L_InPlace2.v
theories/L_Infer.v
theories/L_Infer2.v
theories/L_Insert.v
theories/L_Json.v
theories/L_Json2.v
theories/L_Json3.v
theories/L_Lex.v
theories/L_LexStr.v
theories/L_Literal.v
theories/L_Log.v
theories/L_Macro.v
theories/L_Macros.v
theories/L_Meaning.v
theories/L_Number.v
theories/L_Once.v
theories/L_Optional.v
theories/L_Order.v
theories/L_Overflow.v
theories/L_Parse.v
theories/L_Partial.v
theories/L_Policy.v
theories/L_Policy2.v
theories/L_Policy3.v
theories/L_Range.v
theories/L_RegexExt.v
theories/L_RegexExt2.v
theories/L_Resolve.v
theories/L_Rewrite.v
theories/L_Round.v
theories/L_Safe.v
theories/L_Seval.v
theories/L_Short.v
theories/L_Signature.v
theories/L_Source.v
theories/L_Stale.v
theories/L_StrExt.v
theories/L_StrExt2.v
theories/L_StrExt3.v
theories/L_Strings.v
theories/L_Time.v
theories/L_Tree.v
theories/L_TypeMask.v
theories/L_TypeMask2.v
theories/L_TypeName.v
theories/L_Typed.v
theories/L_Unify.v
theories/L_Unify2.v
theories/L_Unparse1.v
theories/L_Unparse2.v
theories/L_Unparse3.v
theories/L_Unparse4.v
theories/L_Unparse5.v
theories/L_Utf8.v
theories/L_Validator.v
theories/L_Validator2.v
theories/L_Validator3.v
theories/L_Value.v
theories/M_Activation.v
theories/M_Ast.v
theories/M_AstProto.v
theories/M_Attr.v
theories/M_Balancer.v
theories/M_ByteString.v
theories/M_Checker.v
theories/M_Civil.v
theories/M_Compare.v
theories/M_Config.v
theories/M_Convert.v
theories/M_Decl.v
theories/M_Direct.v
theories/M_EnumTable.v
theories/M_Expr.v
theories/M_Ext.v
theories/M_Fold.v
theories/M_Format.v
theories/M_Infer.v
theories/M_Json.v
theories/M_Lex.v
theories/M_Logic.v
theories/M_Machine.v
theories/M_Macro.v
theories/M_Macros.v
theories/M_Math.v
theories/M_Namespace.v
theories/M_Number.v
theories/M_Optional.v
theories/M_Overflow.v
theories/M_Parse.v
theories/M_Plan.v
theories/M_Policy.v
theories/M_RefCount.v
theories/M_RegexExt.v
theories/M_Registry.v
theories/M_Resolve.v
theories/M_Rewrite.v
theories/M_Signature.v
theories/M_Source.v
theories/M_StrExt.v
theories/M_Strings.v
theories/M_TypeMask.v
theories/M_TypeName.v
theories/M_Unparse.v
theories/M_Utf8.v
theories/M_Validator.v
theories/M_Value.v
theories/M_Vulnerable.v
theories/P_Activation.v
theories/P_Ast.v
theories/P_AstProto.v
theories/P_Balance.v
theories/P_ByteString.v
theories/P_Checker.v
theories/P_Compare.v
theories/P_Config.v
theories/P_Convert.v
theories/P_Convert2.v
theories/P_Decl.v
theories/P_Direct.v
theories/P_EnumTable.v
theories/P_Eval.v
theories/P_Fold.v
theories/P_Format.v
theories/P_Func.v
theories/P_Grammar.v
theories/P_Growth.v
theories/P_Infer.v
theories/P_Json.v
theories/P_Lists.v
theories/P_Literal.v
theories/P_Logic.v
theories/P_Macro.v
theories/P_Macro2.v
theories/P_Macros.v
theories/P_Math.v
theories/P_MathMacro.v
theories/P_Names.v
theories/P_Num.v
theories/P_Optional.v
theories/P_Order.v
theories/P_Partial.v
theories/P_Policy.v
theories/P_RefCount.v
theories/P_RegexExt.v
theories/P_Resolve.v
theories/P_Rewrite.v
theories/P_Sets.v
theories/P_Short.v
theories/P_Signature.v
theories/P_Str.v
theories/P_StrExt.v
theories/P_TypeMask.v
theories/P_TypeName.v
theories/P_Typed.v
theories/P_Unparse.v
theories/P_Val.v
theories/P_Validator.v
theories/S_Activation.v
theories/S_Arith.v
theories/S_Ast.v
theories/S_AstProto.v
theories/S_Attr.v
theories/S_ByteString.v
theories/S_Checker.v
theories/S_Compare.v
theories/S_Config.v
theories/S_Convert.v
theories/S_Decl.v
theories/S_Direct.v
theories/S_EnumTable.v
theories/S_Eval.v
theories/S_Ext.v
theories/S_Fold.v
theories/S_Format.v
theories/S_Func.v
theories/S_Grammar.v
theories/S_Growth.v
theories/S_Infer.v
theories/S_Json.v
theories/S_Macro.v
theories/S_Macros.v
theories/S_Math.v
theories/S_Num.v
theories/S_Optional.v
theories/S_Partial.v
theories/S_Policy.v
theories/S_RefCount.v
theories/S_RegexExt.v
theories/S_Resolve.v
theories/S_Rewrite.v
theories/S_Short.v
theories/S_Signature.v
theories/S_Source.v
theories/S_StrExt.v
theories/S_Strings.v
theories/S_Time.v
theories/S_TypeMask.v
theories/S_TypeName.v
theories/S_Typed.v
theories/S_Unparse.v
theories/S_Utf8.v
theories/S_Validator.v
theories/S_Value.v
