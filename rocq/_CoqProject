-Q theories Verif
theories/Num.v
theories/Base.v
theories/CTable.v
theories/CTableWf.v
theories/CTableR.v
theories/CTableHist.v
theories/CTableProps.v
theories/PropCTable.v
theories/Cx.v
theories/State.v
theories/Pkg.v
theories/DensMul.v
theories/Noise.v
theories/Hash.v
theories/Text.v
theories/Draw.v
theories/Format.v
theories/TextL.v
theories/Inv.v
theories/InvL.v
theories/PrimL.v
theories/NormL.v
theories/MkL.v
theories/TrL.v
theories/AddL.v
theories/MulL.v
theories/InnerL.v
theories/KronL.v
theories/CanonL.v
theories/IdentL.v
theories/StateL.v
theories/DensL.v
theories/Control.v
theories/Gate.v
theories/Named.v
theories/Density.v
theories/Fraction.v
theories/Meas.v
theories/GateL.v
theories/GateAct.v
theories/GateAlg.v
theories/NamedL.v
theories/DelL.v
theories/MeasL.v
theories/SampL.v
theories/GcL.v
theories/RefL.v
theories/Inst.v
theories/TraceL.v
theories/Reduce.v
theories/Serial.v
theories/Check.v
theories/Close.v
theories/ReduceL.v
theories/ReduceB.v
theories/SerialL.v
theories/SerialW.v
theories/Run.v
theories/PropBase.v
theories/PropSem.v
theories/Read.v
theories/ReadL.v
theories/PropState.v
theories/PropStruct.v
theories/PropRefute.v
theories/Toffoli.v
theories/PropPrim.v
theories/PropTables.v
theories/PropRun.v
theories/PropGate.v
theories/PropMeas.v
theories/PropUnit.v
theories/PropPauli.v
theories/PropNamed.v
theories/PropDens.v
theories/PropFrac.v
theories/PropReduce.v
theories/PropSerial.v
theories/PropCheck.v
theories/PropDensMul.v
theories/PropDensRead.v
theories/PropDensProb.v
theories/PropNoise.v
theories/PropClose.v
theories/PropReduceB.v
theories/PropHash.v
theories/PropText.v
theories/PropDraw.v
theories/PropFormat.v
theories/Binary.v
theories/BinaryL.v
theories/PropBinary.v
theories/PropUlp.v
theories/ControlQ.v
theories/PropControl.v
theories/Print.v
theories/PropPrint.v
theories/Arith.v
theories/PropArith.v
theories/PropRefuse.v
theories/Stats.v
theories/PropStats.v
theories/PropUStats.v
theories/PropEqual.v
