-Q theories Verif
theories/Scalar.v
theories/Base.v
theories/Spatial.v
theories/Joint.v
theories/Body.v
theories/Kin.v
theories/InvDyn.v
theories/FwdDyn.v
theories/Opspace.v
theories/OpspaceAba.v
theories/Deriv.v
theories/Sim.v
theories/Ops.v
theories/Control.v
theories/Json.v
theories/Instances.v
theories/SpecGeo.v
theories/Specs.v
theories/SpatialProofs.v
theories/TreeProofs.v
theories/JointProofs.v
theories/Samples.v
theories/PropTree.v
theories/PropSpatial.v
theories/PropJoint.v
theories/SpecCache.v
theories/CacheProofs.v
theories/CacheOps.v
theories/SpatialTac.v
theories/BigSum.v
theories/SpecKin.v
theories/KinProofs.v
theories/IbProofs.v
theories/WorldProofs.v
theories/SpecDyn.v
theories/Checks.v
theories/DynProofs.v
theories/SpecAba.v
theories/AbaProofs.v
theories/AinvProofs.v
theories/AbaOps.v
theories/AbaLaws.v
theories/LoadProofs.v
theories/DynApi.v
theories/AbaCache.v
theories/AbaApi.v
theories/RealDyn.v
theories/SpecReal.v
theories/RealCalc.v
theories/RealMotion.v
theories/EnergyProofs.v
theories/RealEnergy.v
theories/HessProofs.v
theories/VelProofs.v
theories/PosProofs.v
theories/SpecNan.v
theories/NanProofs.v
theories/SpecSim.v
theories/SimProofs.v
theories/SpecOps.v
theories/OpsCache.v
theories/OpsApi.v
theories/OpsAlg.v
theories/OpsTask.v
theories/OpsDefects.v
theories/SpecControl.v
theories/ControlProofs.v
theories/PropCache.v
theories/PropKin.v
theories/PropDyn.v
theories/PropAba.v
theories/PropReal.v
theories/PropSim.v
theories/PropOps.v
theories/PropDeriv.v
theories/PropNan.v
theories/PropControl.v
theories/SpecParse.v
theories/ParseProofs.v
theories/ParseSamples.v
theories/PropParse.v
theories/Urdf.v
theories/SpecUrdf.v
theories/UrdfProofs.v
theories/UrdfMerge.v
theories/UrdfLoad.v
theories/UrdfTop.v
theories/UrdfDefects.v
theories/UrdfSamples.v
theories/PropUrdf.v
theories/Discrete.v
theories/SpecDiscrete.v
theories/DiscreteCache.v
theories/DiscreteProofs.v
theories/DiscreteTravel.v
theories/DiscreteLaws.v
theories/DiscreteSlide.v
theories/DiscreteApi.v
theories/DiscreteStill.v
theories/DiscreteConv.v
theories/DiscreteSamples.v
theories/DiscreteWitness.v
theories/PropDiscrete.v
theories/TwinProofs.v
theories/Ik.v
theories/SpecIk.v
theories/IkProofs.v
theories/PropIk.v
theories/JointControl.v
theories/SpecJs.v
theories/JsProofs.v
theories/PropJs.v
theories/Matlab.v
theories/SpecMatlab.v
theories/MatlabProofs.v
theories/MatlabApi.v
theories/MatlabMore.v
theories/MatlabDefects.v
theories/PropMatlab.v
theories/Refs.v
theories/SpecRefs.v
theories/RefProofs.v
theories/PyEdit.v
theories/SpecEdit.v
theories/EditProofs.v
theories/PropPy.v
theories/Options.v
theories/OptionProofs.v
theories/PropOptions.v
theories/SpecHold.v
theories/HoldProofs.v
theories/HoldReal.v
theories/PropHold.v
theories/OaValues.v
theories/OaCache.v
theories/OaLaws.v
theories/OaApi.v
theories/PropOa.v
theories/FirmProofs.v
theories/SpecFric.v
theories/FricProofs.v
theories/PropFric.v
theories/PropFricQ.v
theories/SpecSame.v
theories/SameProofs.v
theories/SameChecks.v
theories/PropSame.v
theories/SpecLag.v
theories/LagProofs.v
theories/PropLag.v
theories/App.v
theories/SpecApp.v
theories/AppProofs.v
theories/AppLoop.v
theories/AppForce.v
theories/AppHold.v
theories/AppSamples.v
theories/PropApp.v
theories/SpecAppTask.v
theories/AppTask.v
theories/AppTorque.v
theories/PropAppTask.v
theories/SpecLoop.v
theories/LoopProofs.v
theories/PropLoop.v
theories/PyFuns.v
theories/SpecPy.v
theories/PyProofs.v
theories/PropPyFuns.v
theories/SpecAttr.v
theories/AttrProofs.v
theories/PropAttr.v
theories/FricAba.v
theories/PropFricAba.v
theories/HoldAba.v
theories/PropHoldAba.v
theories/SpecFrame.v
theories/FrameProofs.v
theories/PropFrame.v
theories/PyView.v
theories/SpecView.v
theories/ViewProofs.v
theories/PropView.v
theories/PyDemo.v
theories/DemoProofs.v
theories/PropDemo.v
theories/PyApp.v
theories/PyAppProofs.v
theories/PropPyApp.v
theories/MatObj.v
theories/SpecMatObj.v
theories/MatObjProofs.v
theories/PropMatObj.v
theories/KinInv.v
theories/SpecKinInv.v
theories/KinInvProofs.v
theories/PropKinInv.v
theories/PyKeep.v
theories/SpecPyKeep.v
theories/KeepProofs.v
theories/PropKeep.v
theories/GrowProofs.v
theories/PropGrow.v
theories/SpecPoint.v
theories/PointProofs.v
theories/PropPoint.v
