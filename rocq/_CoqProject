-Q theories Verif
theories/Base.v
theories/Scalar.v
theories/Spec.v
theories/CSModel.v
theories/CSSpec.v
theories/CSProofs.v
theories/MrhsProofs.v
theories/PropCS.v
theories/PrecModel.v
theories/LevelMath.v
theories/PrecSpec.v
theories/PrecProofs.v
theories/PrecProofs2.v
theories/StaleProofs.v
theories/MrhsPrec.v
theories/PropPrec.v
theories/BuilderModel.v
theories/BuilderSpec.v
theories/BuilderProofs.v
theories/BuilderProofs2.v
theories/PropBuilder.v
theories/ConvModel.v
theories/BucketProofs.v
theories/ConvSpec.v
theories/ConvProofs.v
theories/ConvProofs2.v
theories/ConvProofs3.v
theories/ConvProofs4.v
theories/PropConv.v
theories/ValidModel.v
theories/ValidSpec.v
theories/ValidProofs.v
theories/Mag.v
theories/PruneModel.v
theories/PruneSpec.v
theories/PruneProofs.v
theories/PropUtil.v
theories/VecModel.v
theories/VecSpec.v
theories/VecProofs.v
theories/PropVec.v
theories/MtModel.v
theories/MtProofs.v
theories/PropMt.v
theories/ArrayModel.v
theories/ArraySpec.v
theories/ArrayProofs.v
theories/PropArray.v
theories/OptModel.v
theories/OptSpec.v
theories/PropOpt.v
theories/PreModel.v
theories/PreSpec.v
theories/PreProofs.v
theories/PreProofs2.v
theories/PreProofs3.v
theories/PropPre.v
theories/CroutModel.v
theories/CroutSpec.v
theories/CroutProofs1.v
theories/CroutProofs2.v
theories/CroutProofs3.v
theories/CroutProofs4.v
theories/CroutProofs5.v
theories/CroutProofs6.v
theories/CroutProofs7.v
theories/CroutProofs8.v
theories/CroutProofs9.v
theories/CroutProofs10.v
theories/CroutProofs11.v
theories/PropCrout.v
theories/SchurModel.v
theories/SchurSpec.v
theories/SchurProofs1.v
theories/SchurProofs2.v
theories/SchurProofs3.v
theories/SchurProofs4.v
theories/PropSchur.v
theories/MtSchurModel.v
theories/MtSchurProofs.v
theories/PropMtSchur.v
theories/LinAlg.v
theories/FactorModel.v
theories/FactorSpec.v
theories/FactorMath.v
theories/FactorProofs1.v
theories/FactorProofs2.v
theories/FactorProofs3.v
theories/FactorProofs4.v
theories/FactorProofs5.v
theories/SymmModel.v
theories/SymmSpec.v
theories/SymmProofs1.v
theories/SymmProofs2.v
theories/PropSymm.v
theories/SymmProofs3.v
theories/SymmProofs4.v
theories/SymmProofs5.v
theories/PropSymm2.v
theories/FillSpec.v
theories/FillProofs1.v
theories/FillProofs2.v
theories/FillProofs3.v
theories/PropFactor.v
theories/PropFill.v
theories/FillProofs4.v
theories/PropFill2.v
theories/AugModel.v
theories/PivotModel.v
theories/PivotProofs1.v
theories/PivotProofs2.v
theories/PivotProofs3.v
theories/PivotProofs4.v
theories/PivotProofs5.v
theories/PivotProofs6.v
theories/PivotProofs7.v
theories/PivotProofs8.v
theories/PivotSpec.v
theories/PropPivot.v
theories/AugSpec.v
theories/AugProofs1.v
theories/AugProofs2.v
theories/AugProofs3.v
theories/AugProofs4.v
theories/PropAug.v
theories/RcmModel.v
theories/RcmSpec.v
theories/RcmProofs1.v
theories/RcmProofs2.v
theories/RcmProofs3.v
theories/RcmProofs4.v
theories/PropRcm.v
theories/CApiModel.v
theories/CApiSpec.v
theories/CApiProofs.v
theories/CApiProofs2.v
theories/PropCApi.v
theories/MmModel.v
theories/MmSpec.v
theories/MmProofs.v
theories/MmProofs2.v
theories/PropMm.v
theories/DenseModel.v
theories/DenseSpec.v
theories/DenseProofs1.v
theories/DenseProofs2.v
theories/DenseProofs3.v
theories/DenseProofs4.v
theories/DenseProofs5.v
theories/PropDense.v
theories/LastModel.v
theories/LastProofs.v
theories/InputModel.v
theories/InputSpec.v
theories/PropInput.v
theories/PropLast.v
theories/EqModel.v
theories/EqSpec.v
theories/EqProofs1.v
theories/EqProofs2.v
theories/EqProofs3.v
theories/EqProofs4.v
theories/PropEq.v
theories/EqDual1.v
theories/DualSpec.v
theories/EqDual2.v
theories/EqDual3.v
theories/EqDual4.v
theories/EqDual5.v
theories/EqDual6.v
theories/PropDual.v
theories/MtDropModel.v
theories/MtDropProofs.v
theories/MtDropProofs2.v
theories/PropMtDrop.v
theories/PrepModel.v
theories/PrepSpec.v
theories/PrepProofs1.v
theories/PrepProofs2.v
theories/PrepProofs3.v
theories/PrepProofs4.v
theories/PrepProofs5.v
theories/PropPrep.v
theories/PropScale.v
theories/NormModel.v
theories/NormSpec.v
theories/NormProofs.v
theories/PropNorm.v
theories/PropResidual.v
theories/PropConverge.v
