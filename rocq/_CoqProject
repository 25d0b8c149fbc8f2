-Q theories Verif
theories/M_Num.v
theories/S_LP.v
theories/M_Settings.v
theories/M_Driver.v
theories/S_Driver.v
theories/L_Driver.v
theories/P_Driver.v
theories/M_Mem.v
theories/L_Mem.v
theories/M_Vec.v
theories/S_Csr.v
theories/L_Vec.v
theories/P_Vec.v
theories/M_Csr.v
theories/S_Mat.v
theories/L_Csr.v
theories/L_Shift.v
theories/S_Row.v
theories/L_Row.v
theories/L_CsrCor.v
theories/P_Csr.v
theories/M_Clean.v
theories/S_Clean.v
theories/L_Clean.v
theories/L_Clean2.v
theories/P_Clean.v
theories/M_State.v
theories/M_Act.v
theories/M_Core.v
theories/M_Simple.v
theories/M_StonCols.v
theories/M_Dton.v
theories/M_Parallel.v
theories/M_Propagate.v
theories/M_Init.v
theories/M_Post.v
theories/M_Run.v
theories/L_State.v
theories/L_Struct.v
theories/L_Struct2.v
theories/L_Struct3.v
theories/L_Struct4.v
theories/L_Struct5.v
theories/L_Struct6.v
theories/L_Struct7.v
theories/L_Struct8.v
theories/L_Tiny.v
theories/L_Struct9.v
theories/L_Struct10.v
theories/S_Run.v
theories/S_Struct.v
theories/L_Run.v
theories/L_Struct11.v
theories/L_Init.v
theories/L_NoTiny.v
theories/L_Struct12.v
theories/L_Refute.v
theories/P_Refute.v
theories/P_Struct.v
theories/S_Sem.v
theories/S_FixCols.v
theories/L_Sem.v
theories/L_Sem2.v
theories/L_Sem3.v
theories/L_Sem4.v
theories/L_Sem5.v
theories/L_Sem6.v
theories/L_Mid.v
theories/L_Mid2.v
theories/L_Mid3.v
theories/L_Mid4.v
theories/L_Mid5.v
theories/L_Mid6.v
theories/L_Mid7.v
theories/L_Reach.v
theories/L_Drive.v
theories/L_Sem7.v
theories/L_Sem8.v
theories/L_Empty.v
theories/P_Sem.v
theories/S_Sem2.v
theories/L_Sem9.v
theories/L_Sem10.v
theories/P_Sem2.v
theories/L_Act.v
theories/L_Act2.v
theories/L_Act3.v
theories/S_Sem3.v
theories/L_Act4.v
theories/L_Act5.v
theories/L_Act6.v
theories/L_Act7.v
theories/L_Act8.v
theories/L_Free.v
theories/L_Ston.v
theories/L_Ston2.v
theories/S_Sem4.v
theories/L_Ston3.v
theories/L_Ston4.v
theories/L_Ston5.v
theories/L_Reach2.v
theories/L_ActP.v
theories/L_ActP2.v
theories/P_Act.v
theories/M_Log.v
theories/S_Log.v
theories/L_Log.v
theories/P_Log.v
theories/M_Threads.v
theories/S_Threads.v
theories/L_Threads.v
theories/P_Threads.v
theories/M_Alloc.v
theories/S_Alloc.v
theories/L_Alloc.v
theories/P_Alloc.v
theories/L_Post.v
theories/L_Post2.v
theories/L_Post3.v
theories/L_Post4.v
theories/L_Post5.v
theories/L_Post6.v
theories/S_Post.v
theories/L_Post7.v
theories/P_Post.v
theories/S_Sides.v
theories/L_Sub.v
theories/L_PostPar.v
theories/P_PostPar.v
theories/L_Obj.v
theories/L_Obj2.v
theories/L_Obj3.v
theories/L_Obj4.v
theories/P_Obj.v
theories/M_Again.v
theories/L_Again.v
theories/P_Again.v
theories/M_ParSearch.v
theories/S_Par.v
theories/L_ParSearch.v
theories/L_ParSearch2.v
theories/P_ParSearch.v
theories/S_Merge.v
theories/L_ParRow.v
theories/L_ParRow2.v
theories/L_ParRow3.v
theories/P_Merge.v
theories/S_MergeCol.v
theories/L_ParCol.v
theories/L_ParCol2.v
theories/L_ParCol3.v
theories/L_ParCol4.v
theories/P_MergeCol.v
theories/S_Dton.v
theories/L_Dton.v
theories/L_Dton2.v
theories/L_Dton3.v
theories/P_Dton.v
theories/S_Kkt.v
theories/L_KktR.v
theories/L_Kkt.v
theories/L_Kkt2.v
theories/L_Kkt3.v
theories/L_Kkt4.v
theories/L_Kkt5.v
theories/P_Kkt.v
theories/S_Prim.v
theories/L_Prim.v
theories/L_Prim2.v
theories/L_Prim3.v
theories/L_Prim4.v
theories/L_Prim5.v
theories/L_Prim6.v
theories/L_Prim7.v
theories/L_NoInf.v
theories/L_Prim8.v
theories/L_Prim9.v
theories/L_Best.v
theories/P_Prim.v
theories/S_Trace.v
theories/L_Trace.v
theories/L_Fwd.v
theories/L_Fwd2.v
theories/P_Fwd.v
theories/S_Exact.v
theories/L_Exact.v
theories/L_Exact2.v
theories/L_Exact3.v
theories/P_Exact.v
theories/L_Hide.v
theories/P_Hide.v
theories/S_Vec.v
theories/S_OneRow.v
theories/S_Default.v
theories/S_Matrix.v
theories/L_Keep.v
theories/L_Keep2.v
theories/S_Same.v
theories/L_Same.v
theories/L_Same2.v
theories/L_Same3.v
theories/P_Same.v
theories/P_Matrix.v
