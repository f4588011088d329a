-Q theories Verif
theories/Prelude.v
theories/WindowM.v
theories/WindowS.v
theories/WindowP.v
theories/WindowQ.v
theories/PropsWindow.v
theories/GhostM.v
theories/FieldM.v
theories/FieldS.v
theories/FieldP.v
theories/PropsField.v
theories/MaskM.v
theories/MaskS.v
theories/MaskP.v
theories/PropsMask.v
theories/NeboM.v
theories/NeboS.v
theories/NeboP.v
theories/NeboQ.v
theories/NeboA.v
theories/NeboB.v
theories/NeboC.v
theories/NeboD.v
theories/NeboE.v
theories/NeboF.v
theories/NeboH.v
theories/NeboI.v
theories/NeboG.v
theories/PropsNebo.v
theories/ParM.v
theories/ParS.v
theories/ParP.v
theories/ParQ.v
theories/PropsPar.v
theories/CondM.v
theories/CondS.v
theories/CondP.v
theories/PropsCond.v
theories/PoolM.v
theories/PoolS.v
theories/PoolP.v
theories/PropsPool.v
theories/PtrM.v
theories/PtrS.v
theories/PtrP.v
theories/PtrQ.v
theories/PropsPtr.v
theories/OpDBM.v
theories/OpDBS.v
theories/OpDBP.v
theories/PropsOpDB.v
theories/SemM.v
theories/SemS.v
theories/SemP.v
theories/PropsSem.v
theories/TPoolM.v
theories/TPoolS.v
theories/TPoolP.v
theories/TPoolQ.v
theories/TPoolR.v
theories/TPoolT.v
theories/PropsTPool.v
theories/StencilM.v
theories/StencilS.v
theories/StencilP.v
theories/StencilQ.v
theories/CatalogS.v
theories/StencilR.v
theories/PropsStencil.v
theories/BCM.v
theories/BCS.v
theories/BCP.v
theories/BCQ.v
theories/BCE.v
theories/BCR.v
theories/PropsBC.v
theories/LagrangeM.v
theories/LagrangeS.v
theories/LagrangeP.v
theories/LagrangeQ.v
theories/PropsLagrange.v
theories/IterM.v
theories/IterS.v
theories/IterP.v
theories/CompareM.v
theories/CompareS.v
theories/CompareP.v
theories/CompareE.v
theories/PropsCompare.v
theories/PointM.v
theories/PointS.v
theories/PointP.v
theories/PropsPoint.v
theories/ParticleM.v
theories/ParticleS.v
theories/ParticleP.v
theories/ParticleQ.v
theories/ParticleE.v
theories/PropsParticle.v
theories/GridM.v
theories/GridP.v
theories/PropsGrid.v
theories/AccessM.v
theories/AccessS.v
theories/AccessP.v
theories/PropsAccess.v
theories/InteriorS.v
theories/InteriorP.v
theories/PropsInterior.v
theories/ConsumerM.v
theories/ConsumerS.v
theories/ConsumerP.v
theories/ConsumerQ.v
theories/ConsumerE.v
theories/PropsConsumer.v
theories/FutureM.v
theories/FutureS.v
theories/FutureP.v
theories/FutureQ.v
theories/FutureE.v
theories/PropsFuture.v
theories/StoreM.v
theories/StoreS.v
theories/StoreP.v
theories/PropsStore.v
theories/FuncM.v
theories/FuncS.v
theories/FuncP.v
theories/PropsFunc.v
theories/TCountM.v
theories/TCountS.v
theories/TCountP.v
theories/TCountE.v
theories/PropsTCount.v
theories/GpuM.v
theories/GpuS.v
theories/GpuP.v
theories/GpuQ.v
theories/GpuB.v
theories/GpuE.v
theories/PropsGpu.v
theories/OverM.v
theories/OverS.v
theories/OverP.v
theories/OverQ.v
theories/PropsOver.v
theories/OvAsgM.v
theories/OvAsgS.v
theories/OvAsgP.v
theories/OvAsgQ.v
theories/OvAsgR.v
theories/OvAsgT.v
theories/PropsOvAsg.v
theories/ShareM.v
theories/ShareS.v
theories/ShareP.v
theories/ShareQ.v
theories/ShareR.v
theories/ShareT.v
theories/ShareU.v
theories/ShareV.v
theories/ShareW.v
theories/ShareE.v
theories/PropsShare.v
theories/ConcM.v
theories/ConcS.v
theories/ConcP.v
theories/ConcQ.v
theories/ConcR.v
theories/ConcT.v
theories/ConcU.v
theories/ConcE.v
theories/PropsConc.v
theories/RoundM.v
theories/RoundS.v
theories/RoundP.v
theories/RoundQ.v
theories/RoundR.v
theories/RoundT.v
theories/RoundU.v
theories/RoundV.v
theories/RoundE.v
theories/PropsRound.v
theories/RedM.v
theories/RedS.v
theories/RedP.v
theories/RedQ.v
theories/RedE.v
theories/PropsRed.v
theories/ShutM.v
theories/ShutS.v
theories/ShutP.v
theories/ShutQ.v
theories/ShutE.v
theories/PropsShut.v
theories/ThinS.v
theories/ThinP.v
theories/ThinQ.v
theories/ThinR.v
theories/ThinE.v
theories/PropsThin.v
theories/HeatM.v
theories/HeatS.v
theories/HeatP.v
theories/HeatQ.v
theories/HeatR.v
theories/HeatT.v
theories/HeatD.v
theories/HeatU.v
theories/HeatE.v
theories/Heat64S.v
theories/Heat64P.v
theories/Heat64Q.v
theories/PropsHeat.v
theories/Cmp64M.v
theories/Cmp64S.v
theories/Cmp64P.v
theories/Cmp64Q.v
theories/Cmp64E.v
theories/PropsCmp64.v
theories/UlpM.v
theories/UlpS.v
theories/UlpP.v
theories/UlpE.v
theories/PropsUlp.v
theories/DevPtrM.v
theories/DevPtrS.v
theories/DevPtrP.v
theories/DevPtrQ.v
theories/DevPtrR.v
theories/DevPtrE.v
theories/PropsDevPtr.v
theories/Part64M.v
theories/Part64S.v
theories/Part64P.v
theories/Part64Q.v
theories/Part64R.v
theories/Part64T.v
theories/Part64E.v
theories/PropsPart64.v
theories/Grid64M.v
theories/Grid64S.v
theories/Grid64P.v
theories/Grid64Q.v
theories/Grid64R.v
theories/Grid64E.v
theories/PropsGrid64.v
theories/Lag64M.v
theories/Lag64S.v
theories/Lag64A.v
theories/Lag64P.v
theories/Lag64Q.v
theories/Lag64R.v
theories/Lag64T.v
theories/Lag64U.v
theories/Lag64E.v
theories/PropsLag64.v
theories/BC64M.v
theories/BC64S.v
theories/BC64P.v
theories/BC64Q.v
theories/BC64R.v
theories/BC64E.v
theories/BC64T.v
theories/PropsBC64.v
theories/MatlabM.v
theories/MatlabS.v
theories/MatlabP.v
theories/MatlabQ.v
theories/MatlabR.v
theories/MatlabE.v
theories/PropsMatlab.v
theories/ViewS.v
theories/ViewP.v
theories/PropsView.v
theories/LoopM.v
theories/LoopS.v
theories/LoopP.v
theories/PropsLoop.v
theories/Func64M.v
theories/Func64S.v
theories/Func64R.v
theories/Func64Q.v
theories/Func64T.v
theories/Func64P.v
theories/Func64U.v
theories/Func64E.v
theories/PropsFunc64.v
theories/SortM.v
theories/SortS.v
theories/SortP.v
theories/SortQ.v
theories/SortR.v
theories/SortE.v
theories/PropsSort.v
theories/OpM.v
theories/OpTabM.v
theories/OpS.v
theories/OpP.v
theories/OpQ.v
theories/OpE.v
theories/PropsOp.v
theories/MaskLifeM.v
theories/MaskLifeS.v
theories/MaskLifeP.v
theories/MaskLifeQ.v
theories/MaskLifeR.v
theories/MaskLifeT.v
theories/MaskLifeE.v
theories/PropsMaskLife.v
theories/TimedM.v
theories/TimedS.v
theories/TimedP.v
theories/PropsTimed.v
theories/DevFldM.v
theories/DevFldS.v
theories/DevFldP.v
theories/DevFldQ.v
theories/DevFldR.v
theories/DevFldT.v
theories/PropsDevFld.v
theories/GpuRawM.v
theories/GpuRawS.v
theories/GpuRawP.v
theories/GpuRawT.v
theories/PropsGpuRaw.v
theories/PoolOomM.v
theories/PoolOomS.v
theories/PoolOomP.v
theories/PoolOomT.v
theories/PropsPoolOom.v
theories/SingleM.v
theories/SingleS.v
theories/SingleP.v
theories/SingleT.v
theories/PropsSingle.v
theories/LifeM.v
theories/LifeS.v
theories/LifeP.v
theories/LifeT.v
theories/PropsLife.v
theories/Vec3M.v
theories/Vec3S.v
theories/Vec3P.v
theories/PropsVec3.v
